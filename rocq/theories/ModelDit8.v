(** * Radix-8 decimation-in-time kernels, transcribed by tools/kernels.py

    Serial kernels: src/otfft_avxdit8.h; kernels for a thread team (suffix o): src/otfft_avxdit8omp.h.
    Each kernel is [_fn] (what one SIMD lane computes from its loaded values), [_lane] (which addresses
    that lane loads and stores; loads are listed twiddles first and then in address order, and all of
    them precede the stores in the source too; twiddles hoisted out of the q loop are listed with the lane
    that uses them, the table being read-only here) and the loop nest around it.  A pragma omp for is one
    phase of a region; inactive preprocessor branches (if 0, DO_SINGLE_THREAD) are not modelled. *)

From Coq Require Import List Arith.
From Verif Require Import Scalar Mem Omp Lanes Twid.
Import ListNotations.

Section ModelDit8.
Context {Op : Ops}.

(** dit8_fwdcore : src/otfft_avxdit8.h:33-119, the arithmetic of one lane *)
Definition dit8_fwdcore_fn (v : list C) : list C :=
  match v with
  | [w1p; w2p; w3p; w4p; w5p; w6p; w7p; y0; y1_in; y2_in; y3_in; y4_in; y5_in; y6_in; y7_in] =>
      let y1 := cmul w1p y1_in in
      let y2 := cmul w2p y2_in in
      let y3 := cmul w3p y3_in in
      let y4 := cmul w4p y4_in in
      let y5 := cmul w5p y5_in in
      let y6 := cmul w6p y6_in in
      let y7 := cmul w7p y7_in in
      let a04 := cadd y0 y4 in
      let s04 := csub y0 y4 in
      let a26 := cadd y2 y6 in
      let js26 := jx (csub y2 y6) in
      let a15 := cadd y1 y5 in
      let s15 := csub y1 y5 in
      let a37 := cadd y3 y7 in
      let js37 := jx (csub y3 y7) in
      let a04_p1_a26 := cadd a04 a26 in
      let a15_p1_a37 := cadd a15 a37 in
      let s04_mj_s26 := csub s04 js26 in
      let w8_s15_mj_s37 := w8x (csub s15 js37) in
      let a04_m1_a26 := csub a04 a26 in
      let j_a15_m1_a37 := jx (csub a15 a37) in
      let s04_pj_s26 := cadd s04 js26 in
      let v8_s15_pj_s37 := v8x (cadd s15 js37) in
            [cadd a04_p1_a26 a15_p1_a37; cadd s04_mj_s26 w8_s15_mj_s37; csub a04_m1_a26 j_a15_m1_a37; csub s04_pj_s26
        v8_s15_pj_s37; csub a04_p1_a26 a15_p1_a37; csub s04_mj_s26 w8_s15_mj_s37; cadd a04_m1_a26 j_a15_m1_a37; cadd
        s04_pj_s26 v8_s15_pj_s37]
  | _ => []
  end.
(** dit8_fwdcore : the addresses of one lane *)
Definition dit8_fwdcore_lane (n s : nat) (x y W : ptr) (p q : nat) : lane C :=
  let N := n * s in
  let N0 := 0 in
  let N1 := N / 8 in
  let N2 := N1 * 2 in
  let N3 := N1 * 3 in
  let N4 := N1 * 4 in
  let N5 := N1 * 5 in
  let N6 := N1 * 6 in
  let N7 := N1 * 7 in
  let sp := s * p in
  let s8p := 8 * sp in
  let xq_sp := x +! (q + sp) in
  let yq_s8p := y +! (q + s8p) in
    Lane [twidT 8 N 1 W sp; twidT 8 N 2 W sp; twidT 8 N 3 W sp; twidT 8 N 4 W sp; twidT 8 N 5 W sp; twidT 8 N 6 W sp;
    twidT 8 N 7 W sp; yq_s8p +! (s * 0); yq_s8p +! (s * 1); yq_s8p +! (s * 2); yq_s8p +! (s * 3); yq_s8p +! (s * 4);
    yq_s8p +! (s * 5); yq_s8p +! (s * 6); yq_s8p +! (s * 7)]
       [xq_sp +! N0; xq_sp +! N1; xq_sp +! N2; xq_sp +! N3; xq_sp +! N4; xq_sp +! N5; xq_sp +! N6; xq_sp +! N7]
       (dit8_fwdcore_fn).
Definition dit8_fwdcore (n s : nat) (x y W : ptr) : prog C unit :=
  let m := n / 8 in
  for_ m (fun p => for_step s 4 (fun q => vblock 4 (fun l => dit8_fwdcore_lane n s x y W p (q + l)))).

(** dit8_fwdcore1 : src/otfft_avxdit8.h:121-227, the arithmetic of one lane *)
Definition dit8_fwdcore1_fn (v : list C) : list C :=
  match v with
  | [w1p; w2p; w3p; w4p; w5p; w6p; w7p; y0; y1_in; y2_in; y3_in; y4_in; y5_in; y6_in; y7_in] =>
      let y1 := cmul w1p y1_in in
      let y2 := cmul w2p y2_in in
      let y3 := cmul w3p y3_in in
      let y4 := cmul w4p y4_in in
      let y5 := cmul w5p y5_in in
      let y6 := cmul w6p y6_in in
      let y7 := cmul w7p y7_in in
      let a04 := cadd y0 y4 in
      let s04 := csub y0 y4 in
      let a26 := cadd y2 y6 in
      let js26 := jx (csub y2 y6) in
      let a15 := cadd y1 y5 in
      let s15 := csub y1 y5 in
      let a37 := cadd y3 y7 in
      let js37 := jx (csub y3 y7) in
      let a04_p1_a26 := cadd a04 a26 in
      let a15_p1_a37 := cadd a15 a37 in
      let s04_mj_s26 := csub s04 js26 in
      let w8_s15_mj_s37 := w8x (csub s15 js37) in
      let a04_m1_a26 := csub a04 a26 in
      let j_a15_m1_a37 := jx (csub a15 a37) in
      let s04_pj_s26 := cadd s04 js26 in
      let v8_s15_pj_s37 := v8x (cadd s15 js37) in
            [cadd a04_p1_a26 a15_p1_a37; cadd s04_mj_s26 w8_s15_mj_s37; csub a04_m1_a26 j_a15_m1_a37; csub s04_pj_s26
        v8_s15_pj_s37; csub a04_p1_a26 a15_p1_a37; csub s04_mj_s26 w8_s15_mj_s37; cadd a04_m1_a26 j_a15_m1_a37; cadd
        s04_pj_s26 v8_s15_pj_s37]
  | _ => []
  end.
(** dit8_fwdcore1 : the addresses of one lane *)
Definition dit8_fwdcore1_lane (N : nat) (x y W : ptr) (p : nat) : lane C :=
  let N0 := 0 in
  let N1 := N / 8 in
  let N2 := N1 * 2 in
  let N3 := N1 * 3 in
  let N4 := N1 * 4 in
  let N5 := N1 * 5 in
  let N6 := N1 * 6 in
  let N7 := N1 * 7 in
  let x_p := x +! p in
  let y_8p := y +! (8 * p) in
    Lane [twid 8 N 1 W p; twid 8 N 2 W p; twid 8 N 3 W p; twid 8 N 4 W p; twid 8 N 5 W p; twid 8 N 6 W p; twid 8 N 7 W
    p; y_8p +! 0; y_8p +! (0 + 1); y_8p +! 2; y_8p +! (2 + 1); y_8p +! 4; y_8p +! (4 + 1); y_8p +! 6; y_8p +! (6 + 1)]
       [x_p +! N0; x_p +! N1; x_p +! N2; x_p +! N3; x_p +! N4; x_p +! N5; x_p +! N6; x_p +! N7]
       (dit8_fwdcore1_fn).
Definition dit8_fwdcore1 (N : nat) (x y W : ptr) : prog C unit :=
  let N1 := N / 8 in
  for_step N1 2 (fun p => vblock 2 (fun l => dit8_fwdcore1_lane N x y W (p + l))).

(** dit8_fwdend8 : src/otfft_avxdit8.h:235-279, the arithmetic of one lane *)
Definition dit8_fwdend8_fn (N : nat) (mode : smode) (v : list C) : list C :=
  match v with
  | [z0_in; z1_in; z2_in; z3_in; z4_in; z5_in; z6_in; z7_in] =>
      let z0 := scalepz N mode z0_in in
      let z1 := scalepz N mode z1_in in
      let z2 := scalepz N mode z2_in in
      let z3 := scalepz N mode z3_in in
      let z4 := scalepz N mode z4_in in
      let z5 := scalepz N mode z5_in in
      let z6 := scalepz N mode z6_in in
      let z7 := scalepz N mode z7_in in
      let a04 := cadd z0 z4 in
      let s04 := csub z0 z4 in
      let a26 := cadd z2 z6 in
      let js26 := jx (csub z2 z6) in
      let a15 := cadd z1 z5 in
      let s15 := csub z1 z5 in
      let a37 := cadd z3 z7 in
      let js37 := jx (csub z3 z7) in
      let a04_p1_a26 := cadd a04 a26 in
      let s04_mj_s26 := csub s04 js26 in
      let a04_m1_a26 := csub a04 a26 in
      let s04_pj_s26 := cadd s04 js26 in
      let a15_p1_a37 := cadd a15 a37 in
      let w8_s15_mj_s37 := w8x (csub s15 js37) in
      let j_a15_m1_a37 := jx (csub a15 a37) in
      let v8_s15_pj_s37 := v8x (cadd s15 js37) in
            [cadd a04_p1_a26 a15_p1_a37; cadd s04_mj_s26 w8_s15_mj_s37; csub a04_m1_a26 j_a15_m1_a37; csub s04_pj_s26
        v8_s15_pj_s37; csub a04_p1_a26 a15_p1_a37; csub s04_mj_s26 w8_s15_mj_s37; cadd a04_m1_a26 j_a15_m1_a37; cadd
        s04_pj_s26 v8_s15_pj_s37]
  | _ => []
  end.
(** dit8_fwdend8 : the addresses of one lane *)
Definition dit8_fwdend8_lane (mode : smode) (s : nat) (eo : bool) (x y : ptr) (q : nat) : lane C :=
  let N := 8 * s in
  let z := if eo then y else x in
  let xq := x +! q in
  let zq := z +! q in
    Lane [zq +! (s * 0); zq +! (s * 1); zq +! (s * 2); zq +! (s * 3); zq +! (s * 4); zq +! (s * 5); zq +! (s * 6); zq
    +! (s * 7)]
              [xq +! (s * 0); xq +! (s * 1); xq +! (s * 2); xq +! (s * 3); xq +! (s * 4); xq +! (s * 5); xq +! (s *
         6); xq +! (s * 7)]
       (dit8_fwdend8_fn N mode).
Definition dit8_fwdend8 (mode : smode) (s : nat) (eo : bool) (x y : ptr) : prog C unit :=
  for_step s 2 (fun q => vblock 2 (fun l => dit8_fwdend8_lane mode s eo x y (q + l))).

(** dit8_fwdend8_1 : src/otfft_avxdit8.h:281-320, the arithmetic of one lane *)
Definition dit8_fwdend8_1_fn (mode : smode) (v : list C) : list C :=
  match v with
  | [z0_in; z1_in; z2_in; z3_in; z4_in; z5_in; z6_in; z7_in] =>
      let z0 := scalepz 8 mode z0_in in
      let z1 := scalepz 8 mode z1_in in
      let z2 := scalepz 8 mode z2_in in
      let z3 := scalepz 8 mode z3_in in
      let z4 := scalepz 8 mode z4_in in
      let z5 := scalepz 8 mode z5_in in
      let z6 := scalepz 8 mode z6_in in
      let z7 := scalepz 8 mode z7_in in
      let a04 := cadd z0 z4 in
      let s04 := csub z0 z4 in
      let a26 := cadd z2 z6 in
      let js26 := jx (csub z2 z6) in
      let a15 := cadd z1 z5 in
      let s15 := csub z1 z5 in
      let a37 := cadd z3 z7 in
      let js37 := jx (csub z3 z7) in
      let a04_p1_a26 := cadd a04 a26 in
      let s04_mj_s26 := csub s04 js26 in
      let a04_m1_a26 := csub a04 a26 in
      let s04_pj_s26 := cadd s04 js26 in
      let a15_p1_a37 := cadd a15 a37 in
      let w8_s15_mj_s37 := w8x (csub s15 js37) in
      let j_a15_m1_a37 := jx (csub a15 a37) in
      let v8_s15_pj_s37 := v8x (cadd s15 js37) in
            [cadd a04_p1_a26 a15_p1_a37; cadd s04_mj_s26 w8_s15_mj_s37; csub a04_m1_a26 j_a15_m1_a37; csub s04_pj_s26
        v8_s15_pj_s37; csub a04_p1_a26 a15_p1_a37; csub s04_mj_s26 w8_s15_mj_s37; cadd a04_m1_a26 j_a15_m1_a37; cadd
        s04_pj_s26 v8_s15_pj_s37]
  | _ => []
  end.
(** dit8_fwdend8_1 : the addresses of one lane *)
Definition dit8_fwdend8_1_lane (mode : smode) (eo : bool) (x y : ptr) : lane C :=
  let z := if eo then y else x in
  Lane [z +! 0; z +! 1; z +! 2; z +! 3; z +! 4; z +! 5; z +! 6; z +! 7]
       [x +! 0; x +! 1; x +! 2; x +! 3; x +! 4; x +! 5; x +! 6; x +! 7]
       (dit8_fwdend8_1_fn mode).
Definition dit8_fwdend8_1 (mode : smode) (eo : bool) (x y : ptr) : prog C unit :=
  lblock (dit8_fwdend8_1_lane mode eo x y).

(** dit8_invcore : src/otfft_avxdit8.h:367-463, the arithmetic of one lane *)
Definition dit8_invcore_fn (v : list C) : list C :=
  match v with
  | [w1p_in; w2p_in; w3p_in; w4p_in; w5p_in; w6p_in; w7p_in; y0; y1_in; y2_in; y3_in; y4_in; y5_in; y6_in; y7_in] =>
      let w1p := cconj w1p_in in
      let w2p := cconj w2p_in in
      let w3p := cconj w3p_in in
      let w4p := cconj w4p_in in
      let w5p := cconj w5p_in in
      let w6p := cconj w6p_in in
      let w7p := cconj w7p_in in
      let y1 := cmul w1p y1_in in
      let y2 := cmul w2p y2_in in
      let y3 := cmul w3p y3_in in
      let y4 := cmul w4p y4_in in
      let y5 := cmul w5p y5_in in
      let y6 := cmul w6p y6_in in
      let y7 := cmul w7p y7_in in
      let a04 := cadd y0 y4 in
      let s04 := csub y0 y4 in
      let a26 := cadd y2 y6 in
      let js26 := jx (csub y2 y6) in
      let a15 := cadd y1 y5 in
      let s15 := csub y1 y5 in
      let a37 := cadd y3 y7 in
      let js37 := jx (csub y3 y7) in
      let a04_p1_a26 := cadd a04 a26 in
      let a15_p1_a37 := cadd a15 a37 in
      let s04_pj_s26 := cadd s04 js26 in
      let v8_s15_pj_s37 := v8x (cadd s15 js37) in
      let a04_m1_a26 := csub a04 a26 in
      let j_a15_m1_a37 := jx (csub a15 a37) in
      let s04_mj_s26 := csub s04 js26 in
      let w8_s15_mj_s37 := w8x (csub s15 js37) in
            [cadd a04_p1_a26 a15_p1_a37; cadd s04_pj_s26 v8_s15_pj_s37; cadd a04_m1_a26 j_a15_m1_a37; csub s04_mj_s26
        w8_s15_mj_s37; csub a04_p1_a26 a15_p1_a37; csub s04_pj_s26 v8_s15_pj_s37; csub a04_m1_a26 j_a15_m1_a37; cadd
        s04_mj_s26 w8_s15_mj_s37]
  | _ => []
  end.
(** dit8_invcore : the addresses of one lane *)
Definition dit8_invcore_lane (n s : nat) (x y W : ptr) (p q : nat) : lane C :=
  let N := n * s in
  let N0 := 0 in
  let N1 := N / 8 in
  let N2 := N1 * 2 in
  let N3 := N1 * 3 in
  let N4 := N1 * 4 in
  let N5 := N1 * 5 in
  let N6 := N1 * 6 in
  let N7 := N1 * 7 in
  let sp := s * p in
  let s8p := 8 * sp in
  let xq_sp := x +! (q + sp) in
  let yq_s8p := y +! (q + s8p) in
    Lane [twidT 8 N 1 W sp; twidT 8 N 2 W sp; twidT 8 N 3 W sp; twidT 8 N 4 W sp; twidT 8 N 5 W sp; twidT 8 N 6 W sp;
    twidT 8 N 7 W sp; yq_s8p +! (s * 0); yq_s8p +! (s * 1); yq_s8p +! (s * 2); yq_s8p +! (s * 3); yq_s8p +! (s * 4);
    yq_s8p +! (s * 5); yq_s8p +! (s * 6); yq_s8p +! (s * 7)]
       [xq_sp +! N0; xq_sp +! N1; xq_sp +! N2; xq_sp +! N3; xq_sp +! N4; xq_sp +! N5; xq_sp +! N6; xq_sp +! N7]
       (dit8_invcore_fn).
Definition dit8_invcore (n s : nat) (x y W : ptr) : prog C unit :=
  let m := n / 8 in
  for_ m (fun p => for_step s 4 (fun q => vblock 4 (fun l => dit8_invcore_lane n s x y W p (q + l)))).

(** dit8_invcore1 : src/otfft_avxdit8.h:465-571, the arithmetic of one lane *)
Definition dit8_invcore1_fn (v : list C) : list C :=
  match v with
  | [w1p_in; w2p_in; w3p_in; w4p_in; w5p_in; w6p_in; w7p_in; y0; y1_in; y2_in; y3_in; y4_in; y5_in; y6_in; y7_in] =>
      let w1p := cconj w1p_in in
      let w2p := cconj w2p_in in
      let w3p := cconj w3p_in in
      let w4p := cconj w4p_in in
      let w5p := cconj w5p_in in
      let w6p := cconj w6p_in in
      let w7p := cconj w7p_in in
      let y1 := cmul w1p y1_in in
      let y2 := cmul w2p y2_in in
      let y3 := cmul w3p y3_in in
      let y4 := cmul w4p y4_in in
      let y5 := cmul w5p y5_in in
      let y6 := cmul w6p y6_in in
      let y7 := cmul w7p y7_in in
      let a04 := cadd y0 y4 in
      let s04 := csub y0 y4 in
      let a26 := cadd y2 y6 in
      let js26 := jx (csub y2 y6) in
      let a15 := cadd y1 y5 in
      let s15 := csub y1 y5 in
      let a37 := cadd y3 y7 in
      let js37 := jx (csub y3 y7) in
      let a04_p1_a26 := cadd a04 a26 in
      let a15_p1_a37 := cadd a15 a37 in
      let s04_pj_s26 := cadd s04 js26 in
      let v8_s15_pj_s37 := v8x (cadd s15 js37) in
      let a04_m1_a26 := csub a04 a26 in
      let j_a15_m1_a37 := jx (csub a15 a37) in
      let s04_mj_s26 := csub s04 js26 in
      let w8_s15_mj_s37 := w8x (csub s15 js37) in
            [cadd a04_p1_a26 a15_p1_a37; cadd s04_pj_s26 v8_s15_pj_s37; cadd a04_m1_a26 j_a15_m1_a37; csub s04_mj_s26
        w8_s15_mj_s37; csub a04_p1_a26 a15_p1_a37; csub s04_pj_s26 v8_s15_pj_s37; csub a04_m1_a26 j_a15_m1_a37; cadd
        s04_mj_s26 w8_s15_mj_s37]
  | _ => []
  end.
(** dit8_invcore1 : the addresses of one lane *)
Definition dit8_invcore1_lane (N : nat) (x y W : ptr) (p : nat) : lane C :=
  let N0 := 0 in
  let N1 := N / 8 in
  let N2 := N1 * 2 in
  let N3 := N1 * 3 in
  let N4 := N1 * 4 in
  let N5 := N1 * 5 in
  let N6 := N1 * 6 in
  let N7 := N1 * 7 in
  let x_p := x +! p in
  let y_8p := y +! (8 * p) in
    Lane [twid 8 N 1 W p; twid 8 N 2 W p; twid 8 N 3 W p; twid 8 N 4 W p; twid 8 N 5 W p; twid 8 N 6 W p; twid 8 N 7 W
    p; y_8p +! 0; y_8p +! (0 + 1); y_8p +! 2; y_8p +! (2 + 1); y_8p +! 4; y_8p +! (4 + 1); y_8p +! 6; y_8p +! (6 + 1)]
       [x_p +! N0; x_p +! N1; x_p +! N2; x_p +! N3; x_p +! N4; x_p +! N5; x_p +! N6; x_p +! N7]
       (dit8_invcore1_fn).
Definition dit8_invcore1 (N : nat) (x y W : ptr) : prog C unit :=
  for_step (N / 8) 2 (fun p => vblock 2 (fun l => dit8_invcore1_lane N x y W (p + l))).

(** dit8_invend8 : src/otfft_avxdit8.h:579-623, the arithmetic of one lane *)
Definition dit8_invend8_fn (N : nat) (mode : smode) (v : list C) : list C :=
  match v with
  | [z0_in; z1_in; z2_in; z3_in; z4_in; z5_in; z6_in; z7_in] =>
      let z0 := scalepz N mode z0_in in
      let z1 := scalepz N mode z1_in in
      let z2 := scalepz N mode z2_in in
      let z3 := scalepz N mode z3_in in
      let z4 := scalepz N mode z4_in in
      let z5 := scalepz N mode z5_in in
      let z6 := scalepz N mode z6_in in
      let z7 := scalepz N mode z7_in in
      let a04 := cadd z0 z4 in
      let s04 := csub z0 z4 in
      let a26 := cadd z2 z6 in
      let js26 := jx (csub z2 z6) in
      let a15 := cadd z1 z5 in
      let s15 := csub z1 z5 in
      let a37 := cadd z3 z7 in
      let js37 := jx (csub z3 z7) in
      let a04_p1_a26 := cadd a04 a26 in
      let s04_pj_s26 := cadd s04 js26 in
      let a04_m1_a26 := csub a04 a26 in
      let s04_mj_s26 := csub s04 js26 in
      let a15_p1_a37 := cadd a15 a37 in
      let v8_s15_pj_s37 := v8x (cadd s15 js37) in
      let j_a15_m1_a37 := jx (csub a15 a37) in
      let w8_s15_mj_s37 := w8x (csub s15 js37) in
            [cadd a04_p1_a26 a15_p1_a37; cadd s04_pj_s26 v8_s15_pj_s37; cadd a04_m1_a26 j_a15_m1_a37; csub s04_mj_s26
        w8_s15_mj_s37; csub a04_p1_a26 a15_p1_a37; csub s04_pj_s26 v8_s15_pj_s37; csub a04_m1_a26 j_a15_m1_a37; cadd
        s04_mj_s26 w8_s15_mj_s37]
  | _ => []
  end.
(** dit8_invend8 : the addresses of one lane *)
Definition dit8_invend8_lane (mode : smode) (s : nat) (eo : bool) (x y : ptr) (q : nat) : lane C :=
  let N := 8 * s in
  let z := if eo then y else x in
  let xq := x +! q in
  let zq := z +! q in
    Lane [zq +! (s * 0); zq +! (s * 1); zq +! (s * 2); zq +! (s * 3); zq +! (s * 4); zq +! (s * 5); zq +! (s * 6); zq
    +! (s * 7)]
              [xq +! (s * 0); xq +! (s * 1); xq +! (s * 2); xq +! (s * 3); xq +! (s * 4); xq +! (s * 5); xq +! (s *
         6); xq +! (s * 7)]
       (dit8_invend8_fn N mode).
Definition dit8_invend8 (mode : smode) (s : nat) (eo : bool) (x y : ptr) : prog C unit :=
  for_step s 2 (fun q => vblock 2 (fun l => dit8_invend8_lane mode s eo x y (q + l))).

(** dit8_invend8_1 : src/otfft_avxdit8.h:625-664, the arithmetic of one lane *)
Definition dit8_invend8_1_fn (mode : smode) (v : list C) : list C :=
  match v with
  | [z0_in; z1_in; z2_in; z3_in; z4_in; z5_in; z6_in; z7_in] =>
      let z0 := scalepz 8 mode z0_in in
      let z1 := scalepz 8 mode z1_in in
      let z2 := scalepz 8 mode z2_in in
      let z3 := scalepz 8 mode z3_in in
      let z4 := scalepz 8 mode z4_in in
      let z5 := scalepz 8 mode z5_in in
      let z6 := scalepz 8 mode z6_in in
      let z7 := scalepz 8 mode z7_in in
      let a04 := cadd z0 z4 in
      let s04 := csub z0 z4 in
      let a26 := cadd z2 z6 in
      let js26 := jx (csub z2 z6) in
      let a15 := cadd z1 z5 in
      let s15 := csub z1 z5 in
      let a37 := cadd z3 z7 in
      let js37 := jx (csub z3 z7) in
      let a04_p1_a26 := cadd a04 a26 in
      let s04_pj_s26 := cadd s04 js26 in
      let a04_m1_a26 := csub a04 a26 in
      let s04_mj_s26 := csub s04 js26 in
      let a15_p1_a37 := cadd a15 a37 in
      let v8_s15_pj_s37 := v8x (cadd s15 js37) in
      let j_a15_m1_a37 := jx (csub a15 a37) in
      let w8_s15_mj_s37 := w8x (csub s15 js37) in
            [cadd a04_p1_a26 a15_p1_a37; cadd s04_pj_s26 v8_s15_pj_s37; cadd a04_m1_a26 j_a15_m1_a37; csub s04_mj_s26
        w8_s15_mj_s37; csub a04_p1_a26 a15_p1_a37; csub s04_pj_s26 v8_s15_pj_s37; csub a04_m1_a26 j_a15_m1_a37; cadd
        s04_mj_s26 w8_s15_mj_s37]
  | _ => []
  end.
(** dit8_invend8_1 : the addresses of one lane *)
Definition dit8_invend8_1_lane (mode : smode) (eo : bool) (x y : ptr) : lane C :=
  let z := if eo then y else x in
  Lane [z +! 0; z +! 1; z +! 2; z +! 3; z +! 4; z +! 5; z +! 6; z +! 7]
       [x +! 0; x +! 1; x +! 2; x +! 3; x +! 4; x +! 5; x +! 6; x +! 7]
       (dit8_invend8_1_fn mode).
Definition dit8_invend8_1 (mode : smode) (eo : bool) (x y : ptr) : prog C unit :=
  lblock (dit8_invend8_1_lane mode eo x y).

(** dit8o_fwdcore : src/otfft_avxdit8omp.h:23-122, the arithmetic of one lane *)
Definition dit8o_fwdcore_fn (v : list C) : list C :=
  match v with
  | [w1p; y0; y1_in; y2_in; y3_in; y4_in; y5_in; y6_in; y7_in] =>
      let w2p := cmul w1p w1p in
      let w3p := cmul w1p w2p in
      let w4p := cmul w2p w2p in
      let w5p := cmul w2p w3p in
      let w6p := cmul w3p w3p in
      let w7p := cmul w3p w4p in
      let y1 := cmul w1p y1_in in
      let y2 := cmul w2p y2_in in
      let y3 := cmul w3p y3_in in
      let y4 := cmul w4p y4_in in
      let y5 := cmul w5p y5_in in
      let y6 := cmul w6p y6_in in
      let y7 := cmul w7p y7_in in
      let a04 := cadd y0 y4 in
      let s04 := csub y0 y4 in
      let a26 := cadd y2 y6 in
      let js26 := jx (csub y2 y6) in
      let a15 := cadd y1 y5 in
      let s15 := csub y1 y5 in
      let a37 := cadd y3 y7 in
      let js37 := jx (csub y3 y7) in
      let a04_p1_a26 := cadd a04 a26 in
      let a15_p1_a37 := cadd a15 a37 in
      let s04_mj_s26 := csub s04 js26 in
      let w8_s15_mj_s37 := w8x (csub s15 js37) in
      let a04_m1_a26 := csub a04 a26 in
      let j_a15_m1_a37 := jx (csub a15 a37) in
      let s04_pj_s26 := cadd s04 js26 in
      let v8_s15_pj_s37 := v8x (cadd s15 js37) in
            [cadd a04_p1_a26 a15_p1_a37; cadd s04_mj_s26 w8_s15_mj_s37; csub a04_m1_a26 j_a15_m1_a37; csub s04_pj_s26
        v8_s15_pj_s37; csub a04_p1_a26 a15_p1_a37; csub s04_mj_s26 w8_s15_mj_s37; cadd a04_m1_a26 j_a15_m1_a37; cadd
        s04_pj_s26 v8_s15_pj_s37]
  | _ => []
  end.
(** dit8o_fwdcore : the addresses of one lane *)
Definition dit8o_fwdcore_lane (n s : nat) (x y W : ptr) (p q : nat) : lane C :=
  let N := n * s in
  let N0 := 0 in
  let N1 := N / 8 in
  let N2 := N1 * 2 in
  let N3 := N1 * 3 in
  let N4 := N1 * 4 in
  let N5 := N1 * 5 in
  let N6 := N1 * 6 in
  let N7 := N1 * 7 in
  let sp := s * p in
  let s8p := 8 * sp in
  let xq_sp := x +! (q + sp) in
  let yq_s8p := y +! (q + s8p) in
    Lane [W +! sp; yq_s8p +! (s * 0); yq_s8p +! (s * 1); yq_s8p +! (s * 2); yq_s8p +! (s * 3); yq_s8p +! (s * 4);
    yq_s8p +! (s * 5); yq_s8p +! (s * 6); yq_s8p +! (s * 7)]
       [xq_sp +! N0; xq_sp +! N1; xq_sp +! N2; xq_sp +! N3; xq_sp +! N4; xq_sp +! N5; xq_sp +! N6; xq_sp +! N7]
       (dit8o_fwdcore_fn).
Definition dit8o_fwdcore (n s : nat) (x y W : ptr) : list (phase (V:=C)) :=
  let N := n * s in
  let N1 := N / 8 in
  let Ni := N1 / 4 in
  let h := s / 4 in
  [(Ni, fun i => vblock 4 (fun l => dit8o_fwdcore_lane n s x y W (i / h) ((i mod h) * 4 + l)))].

(** dit8o_fwdcore1 : src/otfft_avxdit8omp.h:124-231, the arithmetic of one lane *)
Definition dit8o_fwdcore1_fn (v : list C) : list C :=
  match v with
  | [w1p; y0; y1_in; y2_in; y3_in; y4_in; y5_in; y6_in; y7_in] =>
      let w2p := cmul w1p w1p in
      let w3p := cmul w1p w2p in
      let w4p := cmul w2p w2p in
      let w5p := cmul w2p w3p in
      let w6p := cmul w3p w3p in
      let w7p := cmul w3p w4p in
      let y1 := cmul w1p y1_in in
      let y2 := cmul w2p y2_in in
      let y3 := cmul w3p y3_in in
      let y4 := cmul w4p y4_in in
      let y5 := cmul w5p y5_in in
      let y6 := cmul w6p y6_in in
      let y7 := cmul w7p y7_in in
      let a04 := cadd y0 y4 in
      let s04 := csub y0 y4 in
      let a26 := cadd y2 y6 in
      let js26 := jx (csub y2 y6) in
      let a15 := cadd y1 y5 in
      let s15 := csub y1 y5 in
      let a37 := cadd y3 y7 in
      let js37 := jx (csub y3 y7) in
      let a04_p1_a26 := cadd a04 a26 in
      let a15_p1_a37 := cadd a15 a37 in
      let s04_mj_s26 := csub s04 js26 in
      let w8_s15_mj_s37 := w8x (csub s15 js37) in
      let a04_m1_a26 := csub a04 a26 in
      let j_a15_m1_a37 := jx (csub a15 a37) in
      let s04_pj_s26 := cadd s04 js26 in
      let v8_s15_pj_s37 := v8x (cadd s15 js37) in
            [cadd a04_p1_a26 a15_p1_a37; cadd s04_mj_s26 w8_s15_mj_s37; csub a04_m1_a26 j_a15_m1_a37; csub s04_pj_s26
        v8_s15_pj_s37; csub a04_p1_a26 a15_p1_a37; csub s04_mj_s26 w8_s15_mj_s37; cadd a04_m1_a26 j_a15_m1_a37; cadd
        s04_pj_s26 v8_s15_pj_s37]
  | _ => []
  end.
(** dit8o_fwdcore1 : the addresses of one lane *)
Definition dit8o_fwdcore1_lane (N : nat) (x y W : ptr) (p : nat) : lane C :=
  let N0 := 0 in
  let N1 := N / 8 in
  let N2 := N1 * 2 in
  let N3 := N1 * 3 in
  let N4 := N1 * 4 in
  let N5 := N1 * 5 in
  let N6 := N1 * 6 in
  let N7 := N1 * 7 in
  let x_p := x +! p in
  let y_8p := y +! (8 * p) in
    Lane [W +! p; y_8p +! 0; y_8p +! (0 + 1); y_8p +! 2; y_8p +! (2 + 1); y_8p +! 4; y_8p +! (4 + 1); y_8p +! 6; y_8p
    +! (6 + 1)]
       [x_p +! N0; x_p +! N1; x_p +! N2; x_p +! N3; x_p +! N4; x_p +! N5; x_p +! N6; x_p +! N7]
       (dit8o_fwdcore1_fn).
Definition dit8o_fwdcore1 (N : nat) (x y W : ptr) : list (phase (V:=C)) :=
  let N1 := N / 8 in
  [par_step N1 2 (fun p => vblock 2 (fun l => dit8o_fwdcore1_lane N x y W (p + l)))].

(** dit8o_fwdend8 : src/otfft_avxdit8omp.h:239-284, the arithmetic of one lane *)
Definition dit8o_fwdend8_fn (N : nat) (mode : smode) (v : list C) : list C :=
  match v with
  | [z0_in; z1_in; z2_in; z3_in; z4_in; z5_in; z6_in; z7_in] =>
      let z0 := scalepz N mode z0_in in
      let z1 := scalepz N mode z1_in in
      let z2 := scalepz N mode z2_in in
      let z3 := scalepz N mode z3_in in
      let z4 := scalepz N mode z4_in in
      let z5 := scalepz N mode z5_in in
      let z6 := scalepz N mode z6_in in
      let z7 := scalepz N mode z7_in in
      let a04 := cadd z0 z4 in
      let s04 := csub z0 z4 in
      let a26 := cadd z2 z6 in
      let js26 := jx (csub z2 z6) in
      let a15 := cadd z1 z5 in
      let s15 := csub z1 z5 in
      let a37 := cadd z3 z7 in
      let js37 := jx (csub z3 z7) in
      let a04_p1_a26 := cadd a04 a26 in
      let s04_mj_s26 := csub s04 js26 in
      let a04_m1_a26 := csub a04 a26 in
      let s04_pj_s26 := cadd s04 js26 in
      let a15_p1_a37 := cadd a15 a37 in
      let w8_s15_mj_s37 := w8x (csub s15 js37) in
      let j_a15_m1_a37 := jx (csub a15 a37) in
      let v8_s15_pj_s37 := v8x (cadd s15 js37) in
            [cadd a04_p1_a26 a15_p1_a37; cadd s04_mj_s26 w8_s15_mj_s37; csub a04_m1_a26 j_a15_m1_a37; csub s04_pj_s26
        v8_s15_pj_s37; csub a04_p1_a26 a15_p1_a37; csub s04_mj_s26 w8_s15_mj_s37; cadd a04_m1_a26 j_a15_m1_a37; cadd
        s04_pj_s26 v8_s15_pj_s37]
  | _ => []
  end.
(** dit8o_fwdend8 : the addresses of one lane *)
Definition dit8o_fwdend8_lane (mode : smode) (s : nat) (eo : bool) (x y : ptr) (q : nat) : lane C :=
  let N := 8 * s in
  let z := if eo then y else x in
  let xq := x +! q in
  let zq := z +! q in
    Lane [zq +! (s * 0); zq +! (s * 1); zq +! (s * 2); zq +! (s * 3); zq +! (s * 4); zq +! (s * 5); zq +! (s * 6); zq
    +! (s * 7)]
              [xq +! (s * 0); xq +! (s * 1); xq +! (s * 2); xq +! (s * 3); xq +! (s * 4); xq +! (s * 5); xq +! (s *
         6); xq +! (s * 7)]
       (dit8o_fwdend8_fn N mode).
Definition dit8o_fwdend8 (mode : smode) (s : nat) (eo : bool) (x y : ptr) : list (phase (V:=C)) :=
  [par_step s 2 (fun q => vblock 2 (fun l => dit8o_fwdend8_lane mode s eo x y (q + l)))].

(** dit8o_fwdend8_1 : src/otfft_avxdit8omp.h:286-328, the arithmetic of one lane *)
Definition dit8o_fwdend8_1_fn (mode : smode) (v : list C) : list C :=
  match v with
  | [z0_in; z1_in; z2_in; z3_in; z4_in; z5_in; z6_in; z7_in] =>
      let z0 := scalepz 8 mode z0_in in
      let z1 := scalepz 8 mode z1_in in
      let z2 := scalepz 8 mode z2_in in
      let z3 := scalepz 8 mode z3_in in
      let z4 := scalepz 8 mode z4_in in
      let z5 := scalepz 8 mode z5_in in
      let z6 := scalepz 8 mode z6_in in
      let z7 := scalepz 8 mode z7_in in
      let a04 := cadd z0 z4 in
      let s04 := csub z0 z4 in
      let a26 := cadd z2 z6 in
      let js26 := jx (csub z2 z6) in
      let a15 := cadd z1 z5 in
      let s15 := csub z1 z5 in
      let a37 := cadd z3 z7 in
      let js37 := jx (csub z3 z7) in
      let a04_p1_a26 := cadd a04 a26 in
      let s04_mj_s26 := csub s04 js26 in
      let a04_m1_a26 := csub a04 a26 in
      let s04_pj_s26 := cadd s04 js26 in
      let a15_p1_a37 := cadd a15 a37 in
      let w8_s15_mj_s37 := w8x (csub s15 js37) in
      let j_a15_m1_a37 := jx (csub a15 a37) in
      let v8_s15_pj_s37 := v8x (cadd s15 js37) in
            [cadd a04_p1_a26 a15_p1_a37; cadd s04_mj_s26 w8_s15_mj_s37; csub a04_m1_a26 j_a15_m1_a37; csub s04_pj_s26
        v8_s15_pj_s37; csub a04_p1_a26 a15_p1_a37; csub s04_mj_s26 w8_s15_mj_s37; cadd a04_m1_a26 j_a15_m1_a37; cadd
        s04_pj_s26 v8_s15_pj_s37]
  | _ => []
  end.
(** dit8o_fwdend8_1 : the addresses of one lane *)
Definition dit8o_fwdend8_1_lane (mode : smode) (eo : bool) (x y : ptr) : lane C :=
  let z := if eo then y else x in
  Lane [z +! 0; z +! 1; z +! 2; z +! 3; z +! 4; z +! 5; z +! 6; z +! 7]
       [x +! 0; x +! 1; x +! 2; x +! 3; x +! 4; x +! 5; x +! 6; x +! 7]
       (dit8o_fwdend8_1_fn mode).
Definition dit8o_fwdend8_1 (mode : smode) (eo : bool) (x y : ptr) : list (phase (V:=C)) :=
  [single (lblock (dit8o_fwdend8_1_lane mode eo x y))].

(** dit8o_invcore : src/otfft_avxdit8omp.h:375-475, the arithmetic of one lane *)
Definition dit8o_invcore_fn (v : list C) : list C :=
  match v with
  | [w1p_in; y0; y1_in; y2_in; y3_in; y4_in; y5_in; y6_in; y7_in] =>
      let w1p := cconj w1p_in in
      let w2p := cmul w1p w1p in
      let w3p := cmul w1p w2p in
      let w4p := cmul w2p w2p in
      let w5p := cmul w2p w3p in
      let w6p := cmul w3p w3p in
      let w7p := cmul w3p w4p in
      let y1 := cmul w1p y1_in in
      let y2 := cmul w2p y2_in in
      let y3 := cmul w3p y3_in in
      let y4 := cmul w4p y4_in in
      let y5 := cmul w5p y5_in in
      let y6 := cmul w6p y6_in in
      let y7 := cmul w7p y7_in in
      let a04 := cadd y0 y4 in
      let s04 := csub y0 y4 in
      let a26 := cadd y2 y6 in
      let js26 := jx (csub y2 y6) in
      let a15 := cadd y1 y5 in
      let s15 := csub y1 y5 in
      let a37 := cadd y3 y7 in
      let js37 := jx (csub y3 y7) in
      let a04_p1_a26 := cadd a04 a26 in
      let a15_p1_a37 := cadd a15 a37 in
      let s04_pj_s26 := cadd s04 js26 in
      let v8_s15_pj_s37 := v8x (cadd s15 js37) in
      let a04_m1_a26 := csub a04 a26 in
      let j_a15_m1_a37 := jx (csub a15 a37) in
      let s04_mj_s26 := csub s04 js26 in
      let w8_s15_mj_s37 := w8x (csub s15 js37) in
            [cadd a04_p1_a26 a15_p1_a37; cadd s04_pj_s26 v8_s15_pj_s37; cadd a04_m1_a26 j_a15_m1_a37; csub s04_mj_s26
        w8_s15_mj_s37; csub a04_p1_a26 a15_p1_a37; csub s04_pj_s26 v8_s15_pj_s37; csub a04_m1_a26 j_a15_m1_a37; cadd
        s04_mj_s26 w8_s15_mj_s37]
  | _ => []
  end.
(** dit8o_invcore : the addresses of one lane *)
Definition dit8o_invcore_lane (n s : nat) (x y W : ptr) (p q : nat) : lane C :=
  let N := n * s in
  let N0 := 0 in
  let N1 := N / 8 in
  let N2 := N1 * 2 in
  let N3 := N1 * 3 in
  let N4 := N1 * 4 in
  let N5 := N1 * 5 in
  let N6 := N1 * 6 in
  let N7 := N1 * 7 in
  let sp := s * p in
  let s8p := 8 * sp in
  let xq_sp := x +! (q + sp) in
  let yq_s8p := y +! (q + s8p) in
    Lane [W +! sp; yq_s8p +! (s * 0); yq_s8p +! (s * 1); yq_s8p +! (s * 2); yq_s8p +! (s * 3); yq_s8p +! (s * 4);
    yq_s8p +! (s * 5); yq_s8p +! (s * 6); yq_s8p +! (s * 7)]
       [xq_sp +! N0; xq_sp +! N1; xq_sp +! N2; xq_sp +! N3; xq_sp +! N4; xq_sp +! N5; xq_sp +! N6; xq_sp +! N7]
       (dit8o_invcore_fn).
Definition dit8o_invcore (n s : nat) (x y W : ptr) : list (phase (V:=C)) :=
  let N := n * s in
  let N1 := N / 8 in
  let Ni := N1 / 4 in
  let h := s / 4 in
  [(Ni, fun i => vblock 4 (fun l => dit8o_invcore_lane n s x y W (i / h) ((i mod h) * 4 + l)))].

(** dit8o_invcore1 : src/otfft_avxdit8omp.h:477-584, the arithmetic of one lane *)
Definition dit8o_invcore1_fn (v : list C) : list C :=
  match v with
  | [w1p_in; y0; y1_in; y2_in; y3_in; y4_in; y5_in; y6_in; y7_in] =>
      let w1p := cconj w1p_in in
      let w2p := cmul w1p w1p in
      let w3p := cmul w1p w2p in
      let w4p := cmul w2p w2p in
      let w5p := cmul w2p w3p in
      let w6p := cmul w3p w3p in
      let w7p := cmul w3p w4p in
      let y1 := cmul w1p y1_in in
      let y2 := cmul w2p y2_in in
      let y3 := cmul w3p y3_in in
      let y4 := cmul w4p y4_in in
      let y5 := cmul w5p y5_in in
      let y6 := cmul w6p y6_in in
      let y7 := cmul w7p y7_in in
      let a04 := cadd y0 y4 in
      let s04 := csub y0 y4 in
      let a26 := cadd y2 y6 in
      let js26 := jx (csub y2 y6) in
      let a15 := cadd y1 y5 in
      let s15 := csub y1 y5 in
      let a37 := cadd y3 y7 in
      let js37 := jx (csub y3 y7) in
      let a04_p1_a26 := cadd a04 a26 in
      let a15_p1_a37 := cadd a15 a37 in
      let s04_pj_s26 := cadd s04 js26 in
      let v8_s15_pj_s37 := v8x (cadd s15 js37) in
      let a04_m1_a26 := csub a04 a26 in
      let j_a15_m1_a37 := jx (csub a15 a37) in
      let s04_mj_s26 := csub s04 js26 in
      let w8_s15_mj_s37 := w8x (csub s15 js37) in
            [cadd a04_p1_a26 a15_p1_a37; cadd s04_pj_s26 v8_s15_pj_s37; cadd a04_m1_a26 j_a15_m1_a37; csub s04_mj_s26
        w8_s15_mj_s37; csub a04_p1_a26 a15_p1_a37; csub s04_pj_s26 v8_s15_pj_s37; csub a04_m1_a26 j_a15_m1_a37; cadd
        s04_mj_s26 w8_s15_mj_s37]
  | _ => []
  end.
(** dit8o_invcore1 : the addresses of one lane *)
Definition dit8o_invcore1_lane (N : nat) (x y W : ptr) (p : nat) : lane C :=
  let N0 := 0 in
  let N1 := N / 8 in
  let N2 := N1 * 2 in
  let N3 := N1 * 3 in
  let N4 := N1 * 4 in
  let N5 := N1 * 5 in
  let N6 := N1 * 6 in
  let N7 := N1 * 7 in
  let x_p := x +! p in
  let y_8p := y +! (8 * p) in
    Lane [W +! p; y_8p +! 0; y_8p +! (0 + 1); y_8p +! 2; y_8p +! (2 + 1); y_8p +! 4; y_8p +! (4 + 1); y_8p +! 6; y_8p
    +! (6 + 1)]
       [x_p +! N0; x_p +! N1; x_p +! N2; x_p +! N3; x_p +! N4; x_p +! N5; x_p +! N6; x_p +! N7]
       (dit8o_invcore1_fn).
Definition dit8o_invcore1 (N : nat) (x y W : ptr) : list (phase (V:=C)) :=
  let N1 := N / 8 in
  [par_step N1 2 (fun p => vblock 2 (fun l => dit8o_invcore1_lane N x y W (p + l)))].

(** dit8o_invend8 : src/otfft_avxdit8omp.h:592-637, the arithmetic of one lane *)
Definition dit8o_invend8_fn (N : nat) (mode : smode) (v : list C) : list C :=
  match v with
  | [z0_in; z1_in; z2_in; z3_in; z4_in; z5_in; z6_in; z7_in] =>
      let z0 := scalepz N mode z0_in in
      let z1 := scalepz N mode z1_in in
      let z2 := scalepz N mode z2_in in
      let z3 := scalepz N mode z3_in in
      let z4 := scalepz N mode z4_in in
      let z5 := scalepz N mode z5_in in
      let z6 := scalepz N mode z6_in in
      let z7 := scalepz N mode z7_in in
      let a04 := cadd z0 z4 in
      let s04 := csub z0 z4 in
      let a26 := cadd z2 z6 in
      let js26 := jx (csub z2 z6) in
      let a15 := cadd z1 z5 in
      let s15 := csub z1 z5 in
      let a37 := cadd z3 z7 in
      let js37 := jx (csub z3 z7) in
      let a04_p1_a26 := cadd a04 a26 in
      let s04_pj_s26 := cadd s04 js26 in
      let a04_m1_a26 := csub a04 a26 in
      let s04_mj_s26 := csub s04 js26 in
      let a15_p1_a37 := cadd a15 a37 in
      let v8_s15_pj_s37 := v8x (cadd s15 js37) in
      let j_a15_m1_a37 := jx (csub a15 a37) in
      let w8_s15_mj_s37 := w8x (csub s15 js37) in
            [cadd a04_p1_a26 a15_p1_a37; cadd s04_pj_s26 v8_s15_pj_s37; cadd a04_m1_a26 j_a15_m1_a37; csub s04_mj_s26
        w8_s15_mj_s37; csub a04_p1_a26 a15_p1_a37; csub s04_pj_s26 v8_s15_pj_s37; csub a04_m1_a26 j_a15_m1_a37; cadd
        s04_mj_s26 w8_s15_mj_s37]
  | _ => []
  end.
(** dit8o_invend8 : the addresses of one lane *)
Definition dit8o_invend8_lane (mode : smode) (s : nat) (eo : bool) (x y : ptr) (q : nat) : lane C :=
  let N := 8 * s in
  let z := if eo then y else x in
  let xq := x +! q in
  let zq := z +! q in
    Lane [zq +! (s * 0); zq +! (s * 1); zq +! (s * 2); zq +! (s * 3); zq +! (s * 4); zq +! (s * 5); zq +! (s * 6); zq
    +! (s * 7)]
              [xq +! (s * 0); xq +! (s * 1); xq +! (s * 2); xq +! (s * 3); xq +! (s * 4); xq +! (s * 5); xq +! (s *
         6); xq +! (s * 7)]
       (dit8o_invend8_fn N mode).
Definition dit8o_invend8 (mode : smode) (s : nat) (eo : bool) (x y : ptr) : list (phase (V:=C)) :=
  [par_step s 2 (fun q => vblock 2 (fun l => dit8o_invend8_lane mode s eo x y (q + l)))].

(** dit8o_invend8_1 : src/otfft_avxdit8omp.h:639-681, the arithmetic of one lane *)
Definition dit8o_invend8_1_fn (mode : smode) (v : list C) : list C :=
  match v with
  | [z0_in; z1_in; z2_in; z3_in; z4_in; z5_in; z6_in; z7_in] =>
      let z0 := scalepz 8 mode z0_in in
      let z1 := scalepz 8 mode z1_in in
      let z2 := scalepz 8 mode z2_in in
      let z3 := scalepz 8 mode z3_in in
      let z4 := scalepz 8 mode z4_in in
      let z5 := scalepz 8 mode z5_in in
      let z6 := scalepz 8 mode z6_in in
      let z7 := scalepz 8 mode z7_in in
      let a04 := cadd z0 z4 in
      let s04 := csub z0 z4 in
      let a26 := cadd z2 z6 in
      let js26 := jx (csub z2 z6) in
      let a15 := cadd z1 z5 in
      let s15 := csub z1 z5 in
      let a37 := cadd z3 z7 in
      let js37 := jx (csub z3 z7) in
      let a04_p1_a26 := cadd a04 a26 in
      let s04_pj_s26 := cadd s04 js26 in
      let a04_m1_a26 := csub a04 a26 in
      let s04_mj_s26 := csub s04 js26 in
      let a15_p1_a37 := cadd a15 a37 in
      let v8_s15_pj_s37 := v8x (cadd s15 js37) in
      let j_a15_m1_a37 := jx (csub a15 a37) in
      let w8_s15_mj_s37 := w8x (csub s15 js37) in
            [cadd a04_p1_a26 a15_p1_a37; cadd s04_pj_s26 v8_s15_pj_s37; cadd a04_m1_a26 j_a15_m1_a37; csub s04_mj_s26
        w8_s15_mj_s37; csub a04_p1_a26 a15_p1_a37; csub s04_pj_s26 v8_s15_pj_s37; csub a04_m1_a26 j_a15_m1_a37; cadd
        s04_mj_s26 w8_s15_mj_s37]
  | _ => []
  end.
(** dit8o_invend8_1 : the addresses of one lane *)
Definition dit8o_invend8_1_lane (mode : smode) (eo : bool) (x y : ptr) : lane C :=
  let z := if eo then y else x in
  Lane [z +! 0; z +! 1; z +! 2; z +! 3; z +! 4; z +! 5; z +! 6; z +! 7]
       [x +! 0; x +! 1; x +! 2; x +! 3; x +! 4; x +! 5; x +! 6; x +! 7]
       (dit8o_invend8_1_fn mode).
Definition dit8o_invend8_1 (mode : smode) (eo : bool) (x y : ptr) : list (phase (V:=C)) :=
  [single (lblock (dit8o_invend8_1_lane mode eo x y))].

End ModelDit8.
