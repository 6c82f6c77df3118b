(** * Radix-8 decimation-in-frequency kernels, transcribed by tools/kernels.py

    Serial kernels: src/otfft_avxdif8.h; kernels for a thread team (suffix o): src/otfft_avxdif8omp.h.
    Each kernel is [_fn] (what one SIMD lane computes from its loaded values), [_lane] (which addresses
    that lane loads and stores; loads are listed twiddles first and then in address order, and all of
    them precede the stores in the source too; twiddles hoisted out of the q loop are listed with the lane
    that uses them, the table being read-only here) and the loop nest around it.  A pragma omp for is one
    phase of a region; inactive preprocessor branches (if 0, DO_SINGLE_THREAD) are not modelled. *)

From Coq Require Import List Arith.
From Verif Require Import Scalar Mem Omp Lanes Twid.
Import ListNotations.

Section ModelDif8.
Context {Op : Ops}.

(** dif8_fwdcore : src/otfft_avxdif8.h:32-101, the arithmetic of one lane *)
Definition dif8_fwdcore_fn (v : list C) : list C :=
  match v with
  | [w1p; w2p; w3p; w4p; w5p; w6p; w7p; x0; x1; x2; x3; x4; x5; x6; x7] =>
      let a04 := cadd x0 x4 in
      let s04 := csub x0 x4 in
      let a26 := cadd x2 x6 in
      let js26 := jx (csub x2 x6) in
      let a15 := cadd x1 x5 in
      let s15 := csub x1 x5 in
      let a37 := cadd x3 x7 in
      let js37 := jx (csub x3 x7) in
      let a04_p1_a26 := cadd a04 a26 in
      let s04_mj_s26 := csub s04 js26 in
      let a04_m1_a26 := csub a04 a26 in
      let s04_pj_s26 := cadd s04 js26 in
      let a15_p1_a37 := cadd a15 a37 in
      let w8_s15_mj_s37 := w8x (csub s15 js37) in
      let j_a15_m1_a37 := jx (csub a15 a37) in
      let v8_s15_pj_s37 := v8x (cadd s15 js37) in
            [cadd a04_p1_a26 a15_p1_a37; cmul w1p (cadd s04_mj_s26 w8_s15_mj_s37); cmul w2p (csub a04_m1_a26
        j_a15_m1_a37); cmul w3p (csub s04_pj_s26 v8_s15_pj_s37); cmul w4p (csub a04_p1_a26 a15_p1_a37); cmul w5p (csub
        s04_mj_s26 w8_s15_mj_s37); cmul w6p (cadd a04_m1_a26 j_a15_m1_a37); cmul w7p (cadd s04_pj_s26 v8_s15_pj_s37)]
  | _ => []
  end.
(** dif8_fwdcore : the addresses of one lane *)
Definition dif8_fwdcore_lane (n s : nat) (x y W : ptr) (p q : nat) : lane C :=
  let N := n * s in
  let N0 := 0 in
  let N1 := N / 8 in
  let N2 := N1 * 2 in
  let N3 := N1 * 3 in
  let N4 := N1 * 4 in
  let N5 := N1 * 5 in
  let N6 := N1 * 6 in
  let N7 := N1 * 7 in
  let sp := s * p in
  let s8p := 8 * sp in
  let xq_sp := x +! (q + sp) in
  let yq_s8p := y +! (q + s8p) in
    Lane [twidT 8 N 1 W sp; twidT 8 N 2 W sp; twidT 8 N 3 W sp; twidT 8 N 4 W sp; twidT 8 N 5 W sp; twidT 8 N 6 W sp;
    twidT 8 N 7 W sp; xq_sp +! N0; xq_sp +! N1; xq_sp +! N2; xq_sp +! N3; xq_sp +! N4; xq_sp +! N5; xq_sp +! N6; xq_sp
    +! N7]
              [yq_s8p +! (s * 0); yq_s8p +! (s * 1); yq_s8p +! (s * 2); yq_s8p +! (s * 3); yq_s8p +! (s * 4); yq_s8p
         +! (s * 5); yq_s8p +! (s * 6); yq_s8p +! (s * 7)]
       (dif8_fwdcore_fn).
Definition dif8_fwdcore (n s : nat) (x y W : ptr) : prog C unit :=
  let m := n / 8 in
  for_ m (fun p => for_step s 4 (fun q => vblock 4 (fun l => dif8_fwdcore_lane n s x y W p (q + l)))).

(** dif8_fwdcore1 : src/otfft_avxdif8.h:103-192, the arithmetic of one lane *)
Definition dif8_fwdcore1_fn (v : list C) : list C :=
  match v with
  | [w1p; w2p; w3p; w4p; w5p; w6p; w7p; x0; x1; x2; x3; x4; x5; x6; x7] =>
      let a04 := cadd x0 x4 in
      let s04 := csub x0 x4 in
      let a26 := cadd x2 x6 in
      let js26 := jx (csub x2 x6) in
      let a15 := cadd x1 x5 in
      let s15 := csub x1 x5 in
      let a37 := cadd x3 x7 in
      let js37 := jx (csub x3 x7) in
      let a04_p1_a26 := cadd a04 a26 in
      let s04_mj_s26 := csub s04 js26 in
      let a04_m1_a26 := csub a04 a26 in
      let s04_pj_s26 := cadd s04 js26 in
      let a15_p1_a37 := cadd a15 a37 in
      let w8_s15_mj_s37 := w8x (csub s15 js37) in
      let j_a15_m1_a37 := jx (csub a15 a37) in
      let v8_s15_pj_s37 := v8x (cadd s15 js37) in
      let aA := cadd a04_p1_a26 a15_p1_a37 in
      let bB := cmul w1p (cadd s04_mj_s26 w8_s15_mj_s37) in
      let cC := cmul w2p (csub a04_m1_a26 j_a15_m1_a37) in
      let dD := cmul w3p (csub s04_pj_s26 v8_s15_pj_s37) in
      let eE := cmul w4p (csub a04_p1_a26 a15_p1_a37) in
      let fF := cmul w5p (csub s04_mj_s26 w8_s15_mj_s37) in
      let gG := cmul w6p (cadd a04_m1_a26 j_a15_m1_a37) in
      let hH := cmul w7p (cadd s04_pj_s26 v8_s15_pj_s37) in
      [aA; bB; cC; dD; eE; fF; gG; hH]
  | _ => []
  end.
(** dif8_fwdcore1 : the addresses of one lane *)
Definition dif8_fwdcore1_lane (N : nat) (x y W : ptr) (p : nat) : lane C :=
  let N0 := 0 in
  let N1 := N / 8 in
  let N2 := N1 * 2 in
  let N3 := N1 * 3 in
  let N4 := N1 * 4 in
  let N5 := N1 * 5 in
  let N6 := N1 * 6 in
  let N7 := N1 * 7 in
  let x_p := x +! p in
  let y_8p := y +! (8 * p) in
    Lane [twid 8 N 1 W p; twid 8 N 2 W p; twid 8 N 3 W p; twid 8 N 4 W p; twid 8 N 5 W p; twid 8 N 6 W p; twid 8 N 7 W
    p; x_p +! N0; x_p +! N1; x_p +! N2; x_p +! N3; x_p +! N4; x_p +! N5; x_p +! N6; x_p +! N7]
              [y_8p +! 0; y_8p +! (0 + 1); y_8p +! 2; y_8p +! (2 + 1); y_8p +! 4; y_8p +! (4 + 1); y_8p +! 6; y_8p +!
         (6 + 1)]
       (dif8_fwdcore1_fn).
Definition dif8_fwdcore1 (N : nat) (x y W : ptr) : prog C unit :=
  let N1 := N / 8 in
  for_step N1 2 (fun p => vblock 2 (fun l => dif8_fwdcore1_lane N x y W (p + l))).

(** dif8_fwdend8 : src/otfft_avxdif8.h:200-244, the arithmetic of one lane *)
Definition dif8_fwdend8_fn (N : nat) (mode : smode) (v : list C) : list C :=
  match v with
  | [x0_in; x1_in; x2_in; x3_in; x4_in; x5_in; x6_in; x7_in] =>
      let x0 := scalepz N mode x0_in in
      let x1 := scalepz N mode x1_in in
      let x2 := scalepz N mode x2_in in
      let x3 := scalepz N mode x3_in in
      let x4 := scalepz N mode x4_in in
      let x5 := scalepz N mode x5_in in
      let x6 := scalepz N mode x6_in in
      let x7 := scalepz N mode x7_in in
      let a04 := cadd x0 x4 in
      let s04 := csub x0 x4 in
      let a26 := cadd x2 x6 in
      let js26 := jx (csub x2 x6) in
      let a15 := cadd x1 x5 in
      let s15 := csub x1 x5 in
      let a37 := cadd x3 x7 in
      let js37 := jx (csub x3 x7) in
      let a04_p1_a26 := cadd a04 a26 in
      let s04_mj_s26 := csub s04 js26 in
      let a04_m1_a26 := csub a04 a26 in
      let s04_pj_s26 := cadd s04 js26 in
      let a15_p1_a37 := cadd a15 a37 in
      let w8_s15_mj_s37 := w8x (csub s15 js37) in
      let j_a15_m1_a37 := jx (csub a15 a37) in
      let v8_s15_pj_s37 := v8x (cadd s15 js37) in
            [cadd a04_p1_a26 a15_p1_a37; cadd s04_mj_s26 w8_s15_mj_s37; csub a04_m1_a26 j_a15_m1_a37; csub s04_pj_s26
        v8_s15_pj_s37; csub a04_p1_a26 a15_p1_a37; csub s04_mj_s26 w8_s15_mj_s37; cadd a04_m1_a26 j_a15_m1_a37; cadd
        s04_pj_s26 v8_s15_pj_s37]
  | _ => []
  end.
(** dif8_fwdend8 : the addresses of one lane *)
Definition dif8_fwdend8_lane (mode : smode) (s : nat) (eo : bool) (x y : ptr) (q : nat) : lane C :=
  let N := 8 * s in
  let z := if eo then y else x in
  let xq := x +! q in
  let zq := z +! q in
    Lane [xq +! (s * 0); xq +! (s * 1); xq +! (s * 2); xq +! (s * 3); xq +! (s * 4); xq +! (s * 5); xq +! (s * 6); xq
    +! (s * 7)]
              [zq +! (s * 0); zq +! (s * 1); zq +! (s * 2); zq +! (s * 3); zq +! (s * 4); zq +! (s * 5); zq +! (s *
         6); zq +! (s * 7)]
       (dif8_fwdend8_fn N mode).
Definition dif8_fwdend8 (mode : smode) (s : nat) (eo : bool) (x y : ptr) : prog C unit :=
  for_step s 2 (fun q => vblock 2 (fun l => dif8_fwdend8_lane mode s eo x y (q + l))).

(** dif8_fwdend8_1 : src/otfft_avxdif8.h:246-285, the arithmetic of one lane *)
Definition dif8_fwdend8_1_fn (mode : smode) (v : list C) : list C :=
  match v with
  | [x0_in; x1_in; x2_in; x3_in; x4_in; x5_in; x6_in; x7_in] =>
      let x0 := scalepz 8 mode x0_in in
      let x1 := scalepz 8 mode x1_in in
      let x2 := scalepz 8 mode x2_in in
      let x3 := scalepz 8 mode x3_in in
      let x4 := scalepz 8 mode x4_in in
      let x5 := scalepz 8 mode x5_in in
      let x6 := scalepz 8 mode x6_in in
      let x7 := scalepz 8 mode x7_in in
      let a04 := cadd x0 x4 in
      let s04 := csub x0 x4 in
      let a26 := cadd x2 x6 in
      let js26 := jx (csub x2 x6) in
      let a15 := cadd x1 x5 in
      let s15 := csub x1 x5 in
      let a37 := cadd x3 x7 in
      let js37 := jx (csub x3 x7) in
      let a04_p1_a26 := cadd a04 a26 in
      let s04_mj_s26 := csub s04 js26 in
      let a04_m1_a26 := csub a04 a26 in
      let s04_pj_s26 := cadd s04 js26 in
      let a15_p1_a37 := cadd a15 a37 in
      let w8_s15_mj_s37 := w8x (csub s15 js37) in
      let j_a15_m1_a37 := jx (csub a15 a37) in
      let v8_s15_pj_s37 := v8x (cadd s15 js37) in
            [cadd a04_p1_a26 a15_p1_a37; cadd s04_mj_s26 w8_s15_mj_s37; csub a04_m1_a26 j_a15_m1_a37; csub s04_pj_s26
        v8_s15_pj_s37; csub a04_p1_a26 a15_p1_a37; csub s04_mj_s26 w8_s15_mj_s37; cadd a04_m1_a26 j_a15_m1_a37; cadd
        s04_pj_s26 v8_s15_pj_s37]
  | _ => []
  end.
(** dif8_fwdend8_1 : the addresses of one lane *)
Definition dif8_fwdend8_1_lane (mode : smode) (eo : bool) (x y : ptr) : lane C :=
  let z := if eo then y else x in
  Lane [x +! 0; x +! 1; x +! 2; x +! 3; x +! 4; x +! 5; x +! 6; x +! 7]
       [z +! 0; z +! 1; z +! 2; z +! 3; z +! 4; z +! 5; z +! 6; z +! 7]
       (dif8_fwdend8_1_fn mode).
Definition dif8_fwdend8_1 (mode : smode) (eo : bool) (x y : ptr) : prog C unit :=
  lblock (dif8_fwdend8_1_lane mode eo x y).

(** dif8_invcore : src/otfft_avxdif8.h:332-409, the arithmetic of one lane *)
Definition dif8_invcore_fn (v : list C) : list C :=
  match v with
  | [w1p_in; w2p_in; w3p_in; w4p_in; w5p_in; w6p_in; w7p_in; x0; x1; x2; x3; x4; x5; x6; x7] =>
      let w1p := cconj w1p_in in
      let w2p := cconj w2p_in in
      let w3p := cconj w3p_in in
      let w4p := cconj w4p_in in
      let w5p := cconj w5p_in in
      let w6p := cconj w6p_in in
      let w7p := cconj w7p_in in
      let a04 := cadd x0 x4 in
      let s04 := csub x0 x4 in
      let a26 := cadd x2 x6 in
      let js26 := jx (csub x2 x6) in
      let a15 := cadd x1 x5 in
      let s15 := csub x1 x5 in
      let a37 := cadd x3 x7 in
      let js37 := jx (csub x3 x7) in
      let a04_p1_a26 := cadd a04 a26 in
      let s04_pj_s26 := cadd s04 js26 in
      let a04_m1_a26 := csub a04 a26 in
      let s04_mj_s26 := csub s04 js26 in
      let a15_p1_a37 := cadd a15 a37 in
      let v8_s15_pj_s37 := v8x (cadd s15 js37) in
      let j_a15_m1_a37 := jx (csub a15 a37) in
      let w8_s15_mj_s37 := w8x (csub s15 js37) in
            [cadd a04_p1_a26 a15_p1_a37; cmul w1p (cadd s04_pj_s26 v8_s15_pj_s37); cmul w2p (cadd a04_m1_a26
        j_a15_m1_a37); cmul w3p (csub s04_mj_s26 w8_s15_mj_s37); cmul w4p (csub a04_p1_a26 a15_p1_a37); cmul w5p (csub
        s04_pj_s26 v8_s15_pj_s37); cmul w6p (csub a04_m1_a26 j_a15_m1_a37); cmul w7p (cadd s04_mj_s26 w8_s15_mj_s37)]
  | _ => []
  end.
(** dif8_invcore : the addresses of one lane *)
Definition dif8_invcore_lane (n s : nat) (x y W : ptr) (p q : nat) : lane C :=
  let N := n * s in
  let N0 := 0 in
  let N1 := N / 8 in
  let N2 := N1 * 2 in
  let N3 := N1 * 3 in
  let N4 := N1 * 4 in
  let N5 := N1 * 5 in
  let N6 := N1 * 6 in
  let N7 := N1 * 7 in
  let sp := s * p in
  let s8p := 8 * sp in
  let xq_sp := x +! (q + sp) in
  let yq_s8p := y +! (q + s8p) in
    Lane [twidT 8 N 1 W sp; twidT 8 N 2 W sp; twidT 8 N 3 W sp; twidT 8 N 4 W sp; twidT 8 N 5 W sp; twidT 8 N 6 W sp;
    twidT 8 N 7 W sp; xq_sp +! N0; xq_sp +! N1; xq_sp +! N2; xq_sp +! N3; xq_sp +! N4; xq_sp +! N5; xq_sp +! N6; xq_sp
    +! N7]
              [yq_s8p +! (s * 0); yq_s8p +! (s * 1); yq_s8p +! (s * 2); yq_s8p +! (s * 3); yq_s8p +! (s * 4); yq_s8p
         +! (s * 5); yq_s8p +! (s * 6); yq_s8p +! (s * 7)]
       (dif8_invcore_fn).
Definition dif8_invcore (n s : nat) (x y W : ptr) : prog C unit :=
  let m := n / 8 in
  for_ m (fun p => for_step s 4 (fun q => vblock 4 (fun l => dif8_invcore_lane n s x y W p (q + l)))).

(** dif8_invcore1 : src/otfft_avxdif8.h:411-500, the arithmetic of one lane *)
Definition dif8_invcore1_fn (v : list C) : list C :=
  match v with
  | [w1p_in; w2p_in; w3p_in; w4p_in; w5p_in; w6p_in; w7p_in; x0; x1; x2; x3; x4; x5; x6; x7] =>
      let a04 := cadd x0 x4 in
      let s04 := csub x0 x4 in
      let a26 := cadd x2 x6 in
      let js26 := jx (csub x2 x6) in
      let a15 := cadd x1 x5 in
      let s15 := csub x1 x5 in
      let a37 := cadd x3 x7 in
      let js37 := jx (csub x3 x7) in
      let a04_p1_a26 := cadd a04 a26 in
      let s04_pj_s26 := cadd s04 js26 in
      let a04_m1_a26 := csub a04 a26 in
      let s04_mj_s26 := csub s04 js26 in
      let a15_p1_a37 := cadd a15 a37 in
      let v8_s15_pj_s37 := v8x (cadd s15 js37) in
      let j_a15_m1_a37 := jx (csub a15 a37) in
      let w8_s15_mj_s37 := w8x (csub s15 js37) in
      let w1p := cconj w1p_in in
      let w2p := cconj w2p_in in
      let w3p := cconj w3p_in in
      let w4p := cconj w4p_in in
      let w5p := cconj w5p_in in
      let w6p := cconj w6p_in in
      let w7p := cconj w7p_in in
      let aA := cadd a04_p1_a26 a15_p1_a37 in
      let bB := cmul w1p (cadd s04_pj_s26 v8_s15_pj_s37) in
      let cC := cmul w2p (cadd a04_m1_a26 j_a15_m1_a37) in
      let dD := cmul w3p (csub s04_mj_s26 w8_s15_mj_s37) in
      let eE := cmul w4p (csub a04_p1_a26 a15_p1_a37) in
      let fF := cmul w5p (csub s04_pj_s26 v8_s15_pj_s37) in
      let gG := cmul w6p (csub a04_m1_a26 j_a15_m1_a37) in
      let hH := cmul w7p (cadd s04_mj_s26 w8_s15_mj_s37) in
      [aA; bB; cC; dD; eE; fF; gG; hH]
  | _ => []
  end.
(** dif8_invcore1 : the addresses of one lane *)
Definition dif8_invcore1_lane (N : nat) (x y W : ptr) (p : nat) : lane C :=
  let N0 := 0 in
  let N1 := N / 8 in
  let N2 := N1 * 2 in
  let N3 := N1 * 3 in
  let N4 := N1 * 4 in
  let N5 := N1 * 5 in
  let N6 := N1 * 6 in
  let N7 := N1 * 7 in
  let x_p := x +! p in
  let y_8p := y +! (8 * p) in
    Lane [twid 8 N 1 W p; twid 8 N 2 W p; twid 8 N 3 W p; twid 8 N 4 W p; twid 8 N 5 W p; twid 8 N 6 W p; twid 8 N 7 W
    p; x_p +! N0; x_p +! N1; x_p +! N2; x_p +! N3; x_p +! N4; x_p +! N5; x_p +! N6; x_p +! N7]
              [y_8p +! 0; y_8p +! (0 + 1); y_8p +! 2; y_8p +! (2 + 1); y_8p +! 4; y_8p +! (4 + 1); y_8p +! 6; y_8p +!
         (6 + 1)]
       (dif8_invcore1_fn).
Definition dif8_invcore1 (N : nat) (x y W : ptr) : prog C unit :=
  let N1 := N / 8 in
  for_step N1 2 (fun p => vblock 2 (fun l => dif8_invcore1_lane N x y W (p + l))).

(** dif8_invend8 : src/otfft_avxdif8.h:508-552, the arithmetic of one lane *)
Definition dif8_invend8_fn (N : nat) (mode : smode) (v : list C) : list C :=
  match v with
  | [x0_in; x1_in; x2_in; x3_in; x4_in; x5_in; x6_in; x7_in] =>
      let x0 := scalepz N mode x0_in in
      let x1 := scalepz N mode x1_in in
      let x2 := scalepz N mode x2_in in
      let x3 := scalepz N mode x3_in in
      let x4 := scalepz N mode x4_in in
      let x5 := scalepz N mode x5_in in
      let x6 := scalepz N mode x6_in in
      let x7 := scalepz N mode x7_in in
      let a04 := cadd x0 x4 in
      let s04 := csub x0 x4 in
      let a26 := cadd x2 x6 in
      let js26 := jx (csub x2 x6) in
      let a15 := cadd x1 x5 in
      let s15 := csub x1 x5 in
      let a37 := cadd x3 x7 in
      let js37 := jx (csub x3 x7) in
      let a04_p1_a26 := cadd a04 a26 in
      let s04_pj_s26 := cadd s04 js26 in
      let a04_m1_a26 := csub a04 a26 in
      let s04_mj_s26 := csub s04 js26 in
      let a15_p1_a37 := cadd a15 a37 in
      let v8_s15_pj_s37 := v8x (cadd s15 js37) in
      let j_a15_m1_a37 := jx (csub a15 a37) in
      let w8_s15_mj_s37 := w8x (csub s15 js37) in
            [cadd a04_p1_a26 a15_p1_a37; cadd s04_pj_s26 v8_s15_pj_s37; cadd a04_m1_a26 j_a15_m1_a37; csub s04_mj_s26
        w8_s15_mj_s37; csub a04_p1_a26 a15_p1_a37; csub s04_pj_s26 v8_s15_pj_s37; csub a04_m1_a26 j_a15_m1_a37; cadd
        s04_mj_s26 w8_s15_mj_s37]
  | _ => []
  end.
(** dif8_invend8 : the addresses of one lane *)
Definition dif8_invend8_lane (mode : smode) (s : nat) (eo : bool) (x y : ptr) (q : nat) : lane C :=
  let N := 8 * s in
  let z := if eo then y else x in
  let xq := x +! q in
  let zq := z +! q in
    Lane [xq +! (s * 0); xq +! (s * 1); xq +! (s * 2); xq +! (s * 3); xq +! (s * 4); xq +! (s * 5); xq +! (s * 6); xq
    +! (s * 7)]
              [zq +! (s * 0); zq +! (s * 1); zq +! (s * 2); zq +! (s * 3); zq +! (s * 4); zq +! (s * 5); zq +! (s *
         6); zq +! (s * 7)]
       (dif8_invend8_fn N mode).
Definition dif8_invend8 (mode : smode) (s : nat) (eo : bool) (x y : ptr) : prog C unit :=
  for_step s 2 (fun q => vblock 2 (fun l => dif8_invend8_lane mode s eo x y (q + l))).

(** dif8_invend8_1 : src/otfft_avxdif8.h:554-593, the arithmetic of one lane *)
Definition dif8_invend8_1_fn (mode : smode) (v : list C) : list C :=
  match v with
  | [x0_in; x1_in; x2_in; x3_in; x4_in; x5_in; x6_in; x7_in] =>
      let x0 := scalepz 8 mode x0_in in
      let x1 := scalepz 8 mode x1_in in
      let x2 := scalepz 8 mode x2_in in
      let x3 := scalepz 8 mode x3_in in
      let x4 := scalepz 8 mode x4_in in
      let x5 := scalepz 8 mode x5_in in
      let x6 := scalepz 8 mode x6_in in
      let x7 := scalepz 8 mode x7_in in
      let a04 := cadd x0 x4 in
      let s04 := csub x0 x4 in
      let a26 := cadd x2 x6 in
      let js26 := jx (csub x2 x6) in
      let a15 := cadd x1 x5 in
      let s15 := csub x1 x5 in
      let a37 := cadd x3 x7 in
      let js37 := jx (csub x3 x7) in
      let a04_p1_a26 := cadd a04 a26 in
      let s04_pj_s26 := cadd s04 js26 in
      let a04_m1_a26 := csub a04 a26 in
      let s04_mj_s26 := csub s04 js26 in
      let a15_p1_a37 := cadd a15 a37 in
      let v8_s15_pj_s37 := v8x (cadd s15 js37) in
      let j_a15_m1_a37 := jx (csub a15 a37) in
      let w8_s15_mj_s37 := w8x (csub s15 js37) in
            [cadd a04_p1_a26 a15_p1_a37; cadd s04_pj_s26 v8_s15_pj_s37; cadd a04_m1_a26 j_a15_m1_a37; csub s04_mj_s26
        w8_s15_mj_s37; csub a04_p1_a26 a15_p1_a37; csub s04_pj_s26 v8_s15_pj_s37; csub a04_m1_a26 j_a15_m1_a37; cadd
        s04_mj_s26 w8_s15_mj_s37]
  | _ => []
  end.
(** dif8_invend8_1 : the addresses of one lane *)
Definition dif8_invend8_1_lane (mode : smode) (eo : bool) (x y : ptr) : lane C :=
  let z := if eo then y else x in
  Lane [x +! 0; x +! 1; x +! 2; x +! 3; x +! 4; x +! 5; x +! 6; x +! 7]
       [z +! 0; z +! 1; z +! 2; z +! 3; z +! 4; z +! 5; z +! 6; z +! 7]
       (dif8_invend8_1_fn mode).
Definition dif8_invend8_1 (mode : smode) (eo : bool) (x y : ptr) : prog C unit :=
  lblock (dif8_invend8_1_lane mode eo x y).

(** dif8o_fwdcore : src/otfft_avxdif8omp.h:23-101, the arithmetic of one lane *)
Definition dif8o_fwdcore_fn (v : list C) : list C :=
  match v with
  | [w1p; x0; x1; x2; x3; x4; x5; x6; x7] =>
      let a04 := cadd x0 x4 in
      let s04 := csub x0 x4 in
      let a26 := cadd x2 x6 in
      let js26 := jx (csub x2 x6) in
      let a15 := cadd x1 x5 in
      let s15 := csub x1 x5 in
      let a37 := cadd x3 x7 in
      let js37 := jx (csub x3 x7) in
      let a04_p1_a26 := cadd a04 a26 in
      let s04_mj_s26 := csub s04 js26 in
      let a04_m1_a26 := csub a04 a26 in
      let s04_pj_s26 := cadd s04 js26 in
      let a15_p1_a37 := cadd a15 a37 in
      let w8_s15_mj_s37 := w8x (csub s15 js37) in
      let j_a15_m1_a37 := jx (csub a15 a37) in
      let v8_s15_pj_s37 := v8x (cadd s15 js37) in
      let w2p := cmul w1p w1p in
      let w3p := cmul w1p w2p in
      let w4p := cmul w2p w2p in
      let w5p := cmul w2p w3p in
      let w6p := cmul w3p w3p in
      let w7p := cmul w3p w4p in
            [cadd a04_p1_a26 a15_p1_a37; cmul w1p (cadd s04_mj_s26 w8_s15_mj_s37); cmul w2p (csub a04_m1_a26
        j_a15_m1_a37); cmul w3p (csub s04_pj_s26 v8_s15_pj_s37); cmul w4p (csub a04_p1_a26 a15_p1_a37); cmul w5p (csub
        s04_mj_s26 w8_s15_mj_s37); cmul w6p (cadd a04_m1_a26 j_a15_m1_a37); cmul w7p (cadd s04_pj_s26 v8_s15_pj_s37)]
  | _ => []
  end.
(** dif8o_fwdcore : the addresses of one lane *)
Definition dif8o_fwdcore_lane (n s : nat) (x y W : ptr) (p q : nat) : lane C :=
  let N := n * s in
  let N0 := 0 in
  let N1 := N / 8 in
  let N2 := N1 * 2 in
  let N3 := N1 * 3 in
  let N4 := N1 * 4 in
  let N5 := N1 * 5 in
  let N6 := N1 * 6 in
  let N7 := N1 * 7 in
  let sp := s * p in
  let s8p := 8 * sp in
  let xq_sp := x +! (q + sp) in
  let yq_s8p := y +! (q + s8p) in
    Lane [W +! sp; xq_sp +! N0; xq_sp +! N1; xq_sp +! N2; xq_sp +! N3; xq_sp +! N4; xq_sp +! N5; xq_sp +! N6; xq_sp +!
    N7]
              [yq_s8p +! (s * 0); yq_s8p +! (s * 1); yq_s8p +! (s * 2); yq_s8p +! (s * 3); yq_s8p +! (s * 4); yq_s8p
         +! (s * 5); yq_s8p +! (s * 6); yq_s8p +! (s * 7)]
       (dif8o_fwdcore_fn).
Definition dif8o_fwdcore (n s : nat) (x y W : ptr) : list (phase (V:=C)) :=
  let N := n * s in
  let N1 := N / 8 in
  let Ni := N1 / 4 in
  let h := s / 4 in
  [(Ni, fun i => vblock 4 (fun l => dif8o_fwdcore_lane n s x y W (i / h) ((i mod h) * 4 + l)))].

(** dif8o_fwdcore1 : src/otfft_avxdif8omp.h:103-194, the arithmetic of one lane *)
Definition dif8o_fwdcore1_fn (v : list C) : list C :=
  match v with
  | [w1p; x0; x1; x2; x3; x4; x5; x6; x7] =>
      let a04 := cadd x0 x4 in
      let s04 := csub x0 x4 in
      let a26 := cadd x2 x6 in
      let js26 := jx (csub x2 x6) in
      let a15 := cadd x1 x5 in
      let s15 := csub x1 x5 in
      let a37 := cadd x3 x7 in
      let js37 := jx (csub x3 x7) in
      let a04_p1_a26 := cadd a04 a26 in
      let s04_mj_s26 := csub s04 js26 in
      let a04_m1_a26 := csub a04 a26 in
      let s04_pj_s26 := cadd s04 js26 in
      let a15_p1_a37 := cadd a15 a37 in
      let w8_s15_mj_s37 := w8x (csub s15 js37) in
      let j_a15_m1_a37 := jx (csub a15 a37) in
      let v8_s15_pj_s37 := v8x (cadd s15 js37) in
      let w2p := cmul w1p w1p in
      let w3p := cmul w1p w2p in
      let w4p := cmul w2p w2p in
      let w5p := cmul w2p w3p in
      let w6p := cmul w3p w3p in
      let w7p := cmul w3p w4p in
      let aA := cadd a04_p1_a26 a15_p1_a37 in
      let bB := cmul w1p (cadd s04_mj_s26 w8_s15_mj_s37) in
      let cC := cmul w2p (csub a04_m1_a26 j_a15_m1_a37) in
      let dD := cmul w3p (csub s04_pj_s26 v8_s15_pj_s37) in
      let eE := cmul w4p (csub a04_p1_a26 a15_p1_a37) in
      let fF := cmul w5p (csub s04_mj_s26 w8_s15_mj_s37) in
      let gG := cmul w6p (cadd a04_m1_a26 j_a15_m1_a37) in
      let hH := cmul w7p (cadd s04_pj_s26 v8_s15_pj_s37) in
      [aA; bB; cC; dD; eE; fF; gG; hH]
  | _ => []
  end.
(** dif8o_fwdcore1 : the addresses of one lane *)
Definition dif8o_fwdcore1_lane (N : nat) (x y W : ptr) (p : nat) : lane C :=
  let N0 := 0 in
  let N1 := N / 8 in
  let N2 := N1 * 2 in
  let N3 := N1 * 3 in
  let N4 := N1 * 4 in
  let N5 := N1 * 5 in
  let N6 := N1 * 6 in
  let N7 := N1 * 7 in
  let x_p := x +! p in
  let y_8p := y +! (8 * p) in
  Lane [W +! p; x_p +! N0; x_p +! N1; x_p +! N2; x_p +! N3; x_p +! N4; x_p +! N5; x_p +! N6; x_p +! N7]
              [y_8p +! 0; y_8p +! (0 + 1); y_8p +! 2; y_8p +! (2 + 1); y_8p +! 4; y_8p +! (4 + 1); y_8p +! 6; y_8p +!
         (6 + 1)]
       (dif8o_fwdcore1_fn).
Definition dif8o_fwdcore1 (N : nat) (x y W : ptr) : list (phase (V:=C)) :=
  let N1 := N / 8 in
  [par_step N1 2 (fun p => vblock 2 (fun l => dif8o_fwdcore1_lane N x y W (p + l)))].

(** dif8o_fwdend8 : src/otfft_avxdif8omp.h:202-247, the arithmetic of one lane *)
Definition dif8o_fwdend8_fn (N : nat) (mode : smode) (v : list C) : list C :=
  match v with
  | [x0_in; x1_in; x2_in; x3_in; x4_in; x5_in; x6_in; x7_in] =>
      let x0 := scalepz N mode x0_in in
      let x1 := scalepz N mode x1_in in
      let x2 := scalepz N mode x2_in in
      let x3 := scalepz N mode x3_in in
      let x4 := scalepz N mode x4_in in
      let x5 := scalepz N mode x5_in in
      let x6 := scalepz N mode x6_in in
      let x7 := scalepz N mode x7_in in
      let a04 := cadd x0 x4 in
      let s04 := csub x0 x4 in
      let a26 := cadd x2 x6 in
      let js26 := jx (csub x2 x6) in
      let a15 := cadd x1 x5 in
      let s15 := csub x1 x5 in
      let a37 := cadd x3 x7 in
      let js37 := jx (csub x3 x7) in
      let a04_p1_a26 := cadd a04 a26 in
      let s04_mj_s26 := csub s04 js26 in
      let a04_m1_a26 := csub a04 a26 in
      let s04_pj_s26 := cadd s04 js26 in
      let a15_p1_a37 := cadd a15 a37 in
      let w8_s15_mj_s37 := w8x (csub s15 js37) in
      let j_a15_m1_a37 := jx (csub a15 a37) in
      let v8_s15_pj_s37 := v8x (cadd s15 js37) in
            [cadd a04_p1_a26 a15_p1_a37; cadd s04_mj_s26 w8_s15_mj_s37; csub a04_m1_a26 j_a15_m1_a37; csub s04_pj_s26
        v8_s15_pj_s37; csub a04_p1_a26 a15_p1_a37; csub s04_mj_s26 w8_s15_mj_s37; cadd a04_m1_a26 j_a15_m1_a37; cadd
        s04_pj_s26 v8_s15_pj_s37]
  | _ => []
  end.
(** dif8o_fwdend8 : the addresses of one lane *)
Definition dif8o_fwdend8_lane (mode : smode) (s : nat) (eo : bool) (x y : ptr) (q : nat) : lane C :=
  let N := 8 * s in
  let z := if eo then y else x in
  let xq := x +! q in
  let zq := z +! q in
    Lane [xq +! (s * 0); xq +! (s * 1); xq +! (s * 2); xq +! (s * 3); xq +! (s * 4); xq +! (s * 5); xq +! (s * 6); xq
    +! (s * 7)]
              [zq +! (s * 0); zq +! (s * 1); zq +! (s * 2); zq +! (s * 3); zq +! (s * 4); zq +! (s * 5); zq +! (s *
         6); zq +! (s * 7)]
       (dif8o_fwdend8_fn N mode).
Definition dif8o_fwdend8 (mode : smode) (s : nat) (eo : bool) (x y : ptr) : list (phase (V:=C)) :=
  [par_step s 2 (fun q => vblock 2 (fun l => dif8o_fwdend8_lane mode s eo x y (q + l)))].

(** dif8o_fwdend8_1 : src/otfft_avxdif8omp.h:249-291, the arithmetic of one lane *)
Definition dif8o_fwdend8_1_fn (mode : smode) (v : list C) : list C :=
  match v with
  | [x0_in; x1_in; x2_in; x3_in; x4_in; x5_in; x6_in; x7_in] =>
      let x0 := scalepz 8 mode x0_in in
      let x1 := scalepz 8 mode x1_in in
      let x2 := scalepz 8 mode x2_in in
      let x3 := scalepz 8 mode x3_in in
      let x4 := scalepz 8 mode x4_in in
      let x5 := scalepz 8 mode x5_in in
      let x6 := scalepz 8 mode x6_in in
      let x7 := scalepz 8 mode x7_in in
      let a04 := cadd x0 x4 in
      let s04 := csub x0 x4 in
      let a26 := cadd x2 x6 in
      let js26 := jx (csub x2 x6) in
      let a15 := cadd x1 x5 in
      let s15 := csub x1 x5 in
      let a37 := cadd x3 x7 in
      let js37 := jx (csub x3 x7) in
      let a04_p1_a26 := cadd a04 a26 in
      let s04_mj_s26 := csub s04 js26 in
      let a04_m1_a26 := csub a04 a26 in
      let s04_pj_s26 := cadd s04 js26 in
      let a15_p1_a37 := cadd a15 a37 in
      let w8_s15_mj_s37 := w8x (csub s15 js37) in
      let j_a15_m1_a37 := jx (csub a15 a37) in
      let v8_s15_pj_s37 := v8x (cadd s15 js37) in
            [cadd a04_p1_a26 a15_p1_a37; cadd s04_mj_s26 w8_s15_mj_s37; csub a04_m1_a26 j_a15_m1_a37; csub s04_pj_s26
        v8_s15_pj_s37; csub a04_p1_a26 a15_p1_a37; csub s04_mj_s26 w8_s15_mj_s37; cadd a04_m1_a26 j_a15_m1_a37; cadd
        s04_pj_s26 v8_s15_pj_s37]
  | _ => []
  end.
(** dif8o_fwdend8_1 : the addresses of one lane *)
Definition dif8o_fwdend8_1_lane (mode : smode) (eo : bool) (x y : ptr) : lane C :=
  let z := if eo then y else x in
  Lane [x +! 0; x +! 1; x +! 2; x +! 3; x +! 4; x +! 5; x +! 6; x +! 7]
       [z +! 0; z +! 1; z +! 2; z +! 3; z +! 4; z +! 5; z +! 6; z +! 7]
       (dif8o_fwdend8_1_fn mode).
Definition dif8o_fwdend8_1 (mode : smode) (eo : bool) (x y : ptr) : list (phase (V:=C)) :=
  [single (lblock (dif8o_fwdend8_1_lane mode eo x y))].

(** dif8o_invcore : src/otfft_avxdif8omp.h:338-417, the arithmetic of one lane *)
Definition dif8o_invcore_fn (v : list C) : list C :=
  match v with
  | [w1p_in; x0; x1; x2; x3; x4; x5; x6; x7] =>
      let a04 := cadd x0 x4 in
      let s04 := csub x0 x4 in
      let a26 := cadd x2 x6 in
      let js26 := jx (csub x2 x6) in
      let a15 := cadd x1 x5 in
      let s15 := csub x1 x5 in
      let a37 := cadd x3 x7 in
      let js37 := jx (csub x3 x7) in
      let a04_p1_a26 := cadd a04 a26 in
      let s04_pj_s26 := cadd s04 js26 in
      let a04_m1_a26 := csub a04 a26 in
      let s04_mj_s26 := csub s04 js26 in
      let a15_p1_a37 := cadd a15 a37 in
      let v8_s15_pj_s37 := v8x (cadd s15 js37) in
      let j_a15_m1_a37 := jx (csub a15 a37) in
      let w8_s15_mj_s37 := w8x (csub s15 js37) in
      let w1p := cconj w1p_in in
      let w2p := cmul w1p w1p in
      let w3p := cmul w1p w2p in
      let w4p := cmul w2p w2p in
      let w5p := cmul w2p w3p in
      let w6p := cmul w3p w3p in
      let w7p := cmul w3p w4p in
            [cadd a04_p1_a26 a15_p1_a37; cmul w1p (cadd s04_pj_s26 v8_s15_pj_s37); cmul w2p (cadd a04_m1_a26
        j_a15_m1_a37); cmul w3p (csub s04_mj_s26 w8_s15_mj_s37); cmul w4p (csub a04_p1_a26 a15_p1_a37); cmul w5p (csub
        s04_pj_s26 v8_s15_pj_s37); cmul w6p (csub a04_m1_a26 j_a15_m1_a37); cmul w7p (cadd s04_mj_s26 w8_s15_mj_s37)]
  | _ => []
  end.
(** dif8o_invcore : the addresses of one lane *)
Definition dif8o_invcore_lane (n s : nat) (x y W : ptr) (p q : nat) : lane C :=
  let N := n * s in
  let N0 := 0 in
  let N1 := N / 8 in
  let N2 := N1 * 2 in
  let N3 := N1 * 3 in
  let N4 := N1 * 4 in
  let N5 := N1 * 5 in
  let N6 := N1 * 6 in
  let N7 := N1 * 7 in
  let sp := s * p in
  let s8p := 8 * sp in
  let xq_sp := x +! (q + sp) in
  let yq_s8p := y +! (q + s8p) in
    Lane [W +! sp; xq_sp +! N0; xq_sp +! N1; xq_sp +! N2; xq_sp +! N3; xq_sp +! N4; xq_sp +! N5; xq_sp +! N6; xq_sp +!
    N7]
              [yq_s8p +! (s * 0); yq_s8p +! (s * 1); yq_s8p +! (s * 2); yq_s8p +! (s * 3); yq_s8p +! (s * 4); yq_s8p
         +! (s * 5); yq_s8p +! (s * 6); yq_s8p +! (s * 7)]
       (dif8o_invcore_fn).
Definition dif8o_invcore (n s : nat) (x y W : ptr) : list (phase (V:=C)) :=
  let N := n * s in
  let N1 := N / 8 in
  let Ni := N1 / 4 in
  let h := s / 4 in
  [(Ni, fun i => vblock 4 (fun l => dif8o_invcore_lane n s x y W (i / h) ((i mod h) * 4 + l)))].

(** dif8o_invcore1 : src/otfft_avxdif8omp.h:419-510, the arithmetic of one lane *)
Definition dif8o_invcore1_fn (v : list C) : list C :=
  match v with
  | [w1p_in; x0; x1; x2; x3; x4; x5; x6; x7] =>
      let w1p := cconj w1p_in in
      let a04 := cadd x0 x4 in
      let s04 := csub x0 x4 in
      let a26 := cadd x2 x6 in
      let js26 := jx (csub x2 x6) in
      let a15 := cadd x1 x5 in
      let s15 := csub x1 x5 in
      let a37 := cadd x3 x7 in
      let js37 := jx (csub x3 x7) in
      let a04_p1_a26 := cadd a04 a26 in
      let s04_pj_s26 := cadd s04 js26 in
      let a04_m1_a26 := csub a04 a26 in
      let s04_mj_s26 := csub s04 js26 in
      let a15_p1_a37 := cadd a15 a37 in
      let v8_s15_pj_s37 := v8x (cadd s15 js37) in
      let j_a15_m1_a37 := jx (csub a15 a37) in
      let w8_s15_mj_s37 := w8x (csub s15 js37) in
      let w2p := cmul w1p w1p in
      let w3p := cmul w1p w2p in
      let w4p := cmul w2p w2p in
      let w5p := cmul w2p w3p in
      let w6p := cmul w3p w3p in
      let w7p := cmul w3p w4p in
      let aA := cadd a04_p1_a26 a15_p1_a37 in
      let bB := cmul w1p (cadd s04_pj_s26 v8_s15_pj_s37) in
      let cC := cmul w2p (cadd a04_m1_a26 j_a15_m1_a37) in
      let dD := cmul w3p (csub s04_mj_s26 w8_s15_mj_s37) in
      let eE := cmul w4p (csub a04_p1_a26 a15_p1_a37) in
      let fF := cmul w5p (csub s04_pj_s26 v8_s15_pj_s37) in
      let gG := cmul w6p (csub a04_m1_a26 j_a15_m1_a37) in
      let hH := cmul w7p (cadd s04_mj_s26 w8_s15_mj_s37) in
      [aA; bB; cC; dD; eE; fF; gG; hH]
  | _ => []
  end.
(** dif8o_invcore1 : the addresses of one lane *)
Definition dif8o_invcore1_lane (N : nat) (x y W : ptr) (p : nat) : lane C :=
  let N0 := 0 in
  let N1 := N / 8 in
  let N2 := N1 * 2 in
  let N3 := N1 * 3 in
  let N4 := N1 * 4 in
  let N5 := N1 * 5 in
  let N6 := N1 * 6 in
  let N7 := N1 * 7 in
  let x_p := x +! p in
  let y_8p := y +! (8 * p) in
  Lane [W +! p; x_p +! N0; x_p +! N1; x_p +! N2; x_p +! N3; x_p +! N4; x_p +! N5; x_p +! N6; x_p +! N7]
              [y_8p +! 0; y_8p +! (0 + 1); y_8p +! 2; y_8p +! (2 + 1); y_8p +! 4; y_8p +! (4 + 1); y_8p +! 6; y_8p +!
         (6 + 1)]
       (dif8o_invcore1_fn).
Definition dif8o_invcore1 (N : nat) (x y W : ptr) : list (phase (V:=C)) :=
  let N1 := N / 8 in
  [par_step N1 2 (fun p => vblock 2 (fun l => dif8o_invcore1_lane N x y W (p + l)))].

(** dif8o_invend8 : src/otfft_avxdif8omp.h:518-563, the arithmetic of one lane *)
Definition dif8o_invend8_fn (N : nat) (mode : smode) (v : list C) : list C :=
  match v with
  | [x0_in; x1_in; x2_in; x3_in; x4_in; x5_in; x6_in; x7_in] =>
      let x0 := scalepz N mode x0_in in
      let x1 := scalepz N mode x1_in in
      let x2 := scalepz N mode x2_in in
      let x3 := scalepz N mode x3_in in
      let x4 := scalepz N mode x4_in in
      let x5 := scalepz N mode x5_in in
      let x6 := scalepz N mode x6_in in
      let x7 := scalepz N mode x7_in in
      let a04 := cadd x0 x4 in
      let s04 := csub x0 x4 in
      let a26 := cadd x2 x6 in
      let js26 := jx (csub x2 x6) in
      let a15 := cadd x1 x5 in
      let s15 := csub x1 x5 in
      let a37 := cadd x3 x7 in
      let js37 := jx (csub x3 x7) in
      let a04_p1_a26 := cadd a04 a26 in
      let s04_pj_s26 := cadd s04 js26 in
      let a04_m1_a26 := csub a04 a26 in
      let s04_mj_s26 := csub s04 js26 in
      let a15_p1_a37 := cadd a15 a37 in
      let v8_s15_pj_s37 := v8x (cadd s15 js37) in
      let j_a15_m1_a37 := jx (csub a15 a37) in
      let w8_s15_mj_s37 := w8x (csub s15 js37) in
            [cadd a04_p1_a26 a15_p1_a37; cadd s04_pj_s26 v8_s15_pj_s37; cadd a04_m1_a26 j_a15_m1_a37; csub s04_mj_s26
        w8_s15_mj_s37; csub a04_p1_a26 a15_p1_a37; csub s04_pj_s26 v8_s15_pj_s37; csub a04_m1_a26 j_a15_m1_a37; cadd
        s04_mj_s26 w8_s15_mj_s37]
  | _ => []
  end.
(** dif8o_invend8 : the addresses of one lane *)
Definition dif8o_invend8_lane (mode : smode) (s : nat) (eo : bool) (x y : ptr) (q : nat) : lane C :=
  let N := 8 * s in
  let z := if eo then y else x in
  let xq := x +! q in
  let zq := z +! q in
    Lane [xq +! (s * 0); xq +! (s * 1); xq +! (s * 2); xq +! (s * 3); xq +! (s * 4); xq +! (s * 5); xq +! (s * 6); xq
    +! (s * 7)]
              [zq +! (s * 0); zq +! (s * 1); zq +! (s * 2); zq +! (s * 3); zq +! (s * 4); zq +! (s * 5); zq +! (s *
         6); zq +! (s * 7)]
       (dif8o_invend8_fn N mode).
Definition dif8o_invend8 (mode : smode) (s : nat) (eo : bool) (x y : ptr) : list (phase (V:=C)) :=
  [par_step s 2 (fun q => vblock 2 (fun l => dif8o_invend8_lane mode s eo x y (q + l)))].

(** dif8o_invend8_1 : src/otfft_avxdif8omp.h:565-607, the arithmetic of one lane *)
Definition dif8o_invend8_1_fn (mode : smode) (v : list C) : list C :=
  match v with
  | [x0_in; x1_in; x2_in; x3_in; x4_in; x5_in; x6_in; x7_in] =>
      let x0 := scalepz 8 mode x0_in in
      let x1 := scalepz 8 mode x1_in in
      let x2 := scalepz 8 mode x2_in in
      let x3 := scalepz 8 mode x3_in in
      let x4 := scalepz 8 mode x4_in in
      let x5 := scalepz 8 mode x5_in in
      let x6 := scalepz 8 mode x6_in in
      let x7 := scalepz 8 mode x7_in in
      let a04 := cadd x0 x4 in
      let s04 := csub x0 x4 in
      let a26 := cadd x2 x6 in
      let js26 := jx (csub x2 x6) in
      let a15 := cadd x1 x5 in
      let s15 := csub x1 x5 in
      let a37 := cadd x3 x7 in
      let js37 := jx (csub x3 x7) in
      let a04_p1_a26 := cadd a04 a26 in
      let s04_pj_s26 := cadd s04 js26 in
      let a04_m1_a26 := csub a04 a26 in
      let s04_mj_s26 := csub s04 js26 in
      let a15_p1_a37 := cadd a15 a37 in
      let v8_s15_pj_s37 := v8x (cadd s15 js37) in
      let j_a15_m1_a37 := jx (csub a15 a37) in
      let w8_s15_mj_s37 := w8x (csub s15 js37) in
            [cadd a04_p1_a26 a15_p1_a37; cadd s04_pj_s26 v8_s15_pj_s37; cadd a04_m1_a26 j_a15_m1_a37; csub s04_mj_s26
        w8_s15_mj_s37; csub a04_p1_a26 a15_p1_a37; csub s04_pj_s26 v8_s15_pj_s37; csub a04_m1_a26 j_a15_m1_a37; cadd
        s04_mj_s26 w8_s15_mj_s37]
  | _ => []
  end.
(** dif8o_invend8_1 : the addresses of one lane *)
Definition dif8o_invend8_1_lane (mode : smode) (eo : bool) (x y : ptr) : lane C :=
  let z := if eo then y else x in
  Lane [x +! 0; x +! 1; x +! 2; x +! 3; x +! 4; x +! 5; x +! 6; x +! 7]
       [z +! 0; z +! 1; z +! 2; z +! 3; z +! 4; z +! 5; z +! 6; z +! 7]
       (dif8o_invend8_1_fn mode).
Definition dif8o_invend8_1 (mode : smode) (eo : bool) (x y : ptr) : list (phase (V:=C)) :=
  [single (lblock (dif8o_invend8_1_lane mode eo x y))].

End ModelDif8.
