(** * Radix-16 decimation-in-time kernels, transcribed by tools/kernels.py

    Serial kernels: src/otfft_avxdit16.h; kernels for a thread team (suffix o): src/otfft_avxdit16omp.h.
    Each kernel is [_fn] (what one SIMD lane computes from its loaded values), [_lane] (which addresses
    that lane loads and stores; loads are listed twiddles first and then in address order, and all of
    them precede the stores in the source too; twiddles hoisted out of the q loop are listed with the lane
    that uses them, the table being read-only here) and the loop nest around it.  A pragma omp for is one
    phase of a region; inactive preprocessor branches (if 0, DO_SINGLE_THREAD) are not modelled. *)

From Coq Require Import List Arith.
From Verif Require Import Scalar Mem Omp Lanes Twid.
Import ListNotations.

Section ModelDit16.
Context {Op : Ops}.

(** dit16_fwdcore : src/otfft_avxdit16.h:32-206, the arithmetic of one lane *)
Definition dit16_fwdcore_fn (v : list C) : list C :=
  match v with
    | [w1p; w2p; w3p; w4p; w5p; w6p; w7p; w8p; w9p; wap; wbp; wcp; wdp; wep; wfp; y0; y1_in; y2_in; y3_in; y4_in;
    y5_in; y6_in; y7_in; y8_in; y9_in; ya_in; yb_in; yc_in; yd_in; ye_in; yf_in] =>
      let y1 := cmul w1p y1_in in
      let y2 := cmul w2p y2_in in
      let y3 := cmul w3p y3_in in
      let y4 := cmul w4p y4_in in
      let y5 := cmul w5p y5_in in
      let y6 := cmul w6p y6_in in
      let y7 := cmul w7p y7_in in
      let y8 := cmul w8p y8_in in
      let y9 := cmul w9p y9_in in
      let ya := cmul wap ya_in in
      let yb := cmul wbp yb_in in
      let yc := cmul wcp yc_in in
      let yd := cmul wdp yd_in in
      let ye := cmul wep ye_in in
      let yf := cmul wfp yf_in in
      let a08 := cadd y0 y8 in
      let s08 := csub y0 y8 in
      let a4c := cadd y4 yc in
      let s4c := csub y4 yc in
      let a2a := cadd y2 ya in
      let s2a := csub y2 ya in
      let a6e := cadd y6 ye in
      let s6e := csub y6 ye in
      let a19 := cadd y1 y9 in
      let s19 := csub y1 y9 in
      let a5d := cadd y5 yd in
      let s5d := csub y5 yd in
      let a3b := cadd y3 yb in
      let s3b := csub y3 yb in
      let a7f := cadd y7 yf in
      let s7f := csub y7 yf in
      let js4c := jx s4c in
      let js6e := jx s6e in
      let js5d := jx s5d in
      let js7f := jx s7f in
      let a08p1a4c := cadd a08 a4c in
      let s08mjs4c := csub s08 js4c in
      let a08m1a4c := csub a08 a4c in
      let s08pjs4c := cadd s08 js4c in
      let a2ap1a6e := cadd a2a a6e in
      let s2amjs6e := csub s2a js6e in
      let a2am1a6e := csub a2a a6e in
      let s2apjs6e := cadd s2a js6e in
      let a19p1a5d := cadd a19 a5d in
      let s19mjs5d := csub s19 js5d in
      let a19m1a5d := csub a19 a5d in
      let s19pjs5d := cadd s19 js5d in
      let a3bp1a7f := cadd a3b a7f in
      let s3bmjs7f := csub s3b js7f in
      let a3bm1a7f := csub a3b a7f in
      let s3bpjs7f := cadd s3b js7f in
      let w8_s2amjs6e := w8x s2amjs6e in
      let j_a2am1a6e := jx a2am1a6e in
      let v8_s2apjs6e := v8x s2apjs6e in
      let a08p1a4c_p1_a2ap1a6e := cadd a08p1a4c a2ap1a6e in
      let s08mjs4c_pw_s2amjs6e := cadd s08mjs4c w8_s2amjs6e in
      let a08m1a4c_mj_a2am1a6e := csub a08m1a4c j_a2am1a6e in
      let s08pjs4c_mv_s2apjs6e := csub s08pjs4c v8_s2apjs6e in
      let a08p1a4c_m1_a2ap1a6e := csub a08p1a4c a2ap1a6e in
      let s08mjs4c_mw_s2amjs6e := csub s08mjs4c w8_s2amjs6e in
      let a08m1a4c_pj_a2am1a6e := cadd a08m1a4c j_a2am1a6e in
      let s08pjs4c_pv_s2apjs6e := cadd s08pjs4c v8_s2apjs6e in
      let w8_s3bmjs7f := w8x s3bmjs7f in
      let j_a3bm1a7f := jx a3bm1a7f in
      let v8_s3bpjs7f := v8x s3bpjs7f in
      let a19p1a5d_p1_a3bp1a7f := cadd a19p1a5d a3bp1a7f in
      let s19mjs5d_pw_s3bmjs7f := cadd s19mjs5d w8_s3bmjs7f in
      let a19m1a5d_mj_a3bm1a7f := csub a19m1a5d j_a3bm1a7f in
      let s19pjs5d_mv_s3bpjs7f := csub s19pjs5d v8_s3bpjs7f in
      let a19p1a5d_m1_a3bp1a7f := csub a19p1a5d a3bp1a7f in
      let s19mjs5d_mw_s3bmjs7f := csub s19mjs5d w8_s3bmjs7f in
      let a19m1a5d_pj_a3bm1a7f := cadd a19m1a5d j_a3bm1a7f in
      let s19pjs5d_pv_s3bpjs7f := cadd s19pjs5d v8_s3bpjs7f in
      let h1_s19mjs5d_pw_s3bmjs7f := h1x s19mjs5d_pw_s3bmjs7f in
      let w8_a19m1a5d_mj_a3bm1a7f := w8x a19m1a5d_mj_a3bm1a7f in
      let h3_s19pjs5d_mv_s3bpjs7f := h3x s19pjs5d_mv_s3bpjs7f in
      let j_a19p1a5d_m1_a3bp1a7f := jx a19p1a5d_m1_a3bp1a7f in
      let hd_s19mjs5d_mw_s3bmjs7f := hdx s19mjs5d_mw_s3bmjs7f in
      let v8_a19m1a5d_pj_a3bm1a7f := v8x a19m1a5d_pj_a3bm1a7f in
      let hf_s19pjs5d_pv_s3bpjs7f := hfx s19pjs5d_pv_s3bpjs7f in
            [cadd a08p1a4c_p1_a2ap1a6e a19p1a5d_p1_a3bp1a7f; cadd s08mjs4c_pw_s2amjs6e h1_s19mjs5d_pw_s3bmjs7f; cadd
        a08m1a4c_mj_a2am1a6e w8_a19m1a5d_mj_a3bm1a7f; cadd s08pjs4c_mv_s2apjs6e h3_s19pjs5d_mv_s3bpjs7f; csub
        a08p1a4c_m1_a2ap1a6e j_a19p1a5d_m1_a3bp1a7f; csub s08mjs4c_mw_s2amjs6e hd_s19mjs5d_mw_s3bmjs7f; csub
        a08m1a4c_pj_a2am1a6e v8_a19m1a5d_pj_a3bm1a7f; csub s08pjs4c_pv_s2apjs6e hf_s19pjs5d_pv_s3bpjs7f; csub
        a08p1a4c_p1_a2ap1a6e a19p1a5d_p1_a3bp1a7f; csub s08mjs4c_pw_s2amjs6e h1_s19mjs5d_pw_s3bmjs7f; csub
        a08m1a4c_mj_a2am1a6e w8_a19m1a5d_mj_a3bm1a7f; csub s08pjs4c_mv_s2apjs6e h3_s19pjs5d_mv_s3bpjs7f; cadd
        a08p1a4c_m1_a2ap1a6e j_a19p1a5d_m1_a3bp1a7f; cadd s08mjs4c_mw_s2amjs6e hd_s19mjs5d_mw_s3bmjs7f; cadd
        a08m1a4c_pj_a2am1a6e v8_a19m1a5d_pj_a3bm1a7f; cadd s08pjs4c_pv_s2apjs6e hf_s19pjs5d_pv_s3bpjs7f]
  | _ => []
  end.
(** dit16_fwdcore : the addresses of one lane *)
Definition dit16_fwdcore_lane (n s : nat) (x y W : ptr) (p q : nat) : lane C :=
  let N := n * s in
  let N0 := 0 in
  let N1 := N / 16 in
  let N2 := N1 * 2 in
  let N3 := N1 * 3 in
  let N4 := N1 * 4 in
  let N5 := N1 * 5 in
  let N6 := N1 * 6 in
  let N7 := N1 * 7 in
  let N8 := N1 * 8 in
  let N9 := N1 * 9 in
  let Na := N1 * 10 in
  let Nb := N1 * 11 in
  let Nc := N1 * 12 in
  let Nd := N1 * 13 in
  let Ne := N1 * 14 in
  let Nf := N1 * 15 in
  let sp := s * p in
  let s16p := 16 * sp in
  let xq_sp := x +! (q + sp) in
  let yq_s16p := y +! (q + s16p) in
    Lane [twidT 16 N 1 W sp; twidT 16 N 2 W sp; twidT 16 N 3 W sp; twidT 16 N 4 W sp; twidT 16 N 5 W sp; twidT 16 N 6
    W sp; twidT 16 N 7 W sp; twidT 16 N 8 W sp; twidT 16 N 9 W sp; twidT 16 N 10 W sp; twidT 16 N 11 W sp; twidT 16 N
    12 W sp; twidT 16 N 13 W sp; twidT 16 N 14 W sp; twidT 16 N 15 W sp; yq_s16p +! (s * 0); yq_s16p +! (s * 1);
    yq_s16p +! (s * 2); yq_s16p +! (s * 3); yq_s16p +! (s * 4); yq_s16p +! (s * 5); yq_s16p +! (s * 6); yq_s16p +! (s
    * 7); yq_s16p +! (s * 8); yq_s16p +! (s * 9); yq_s16p +! (s * 10); yq_s16p +! (s * 11); yq_s16p +! (s * 12);
    yq_s16p +! (s * 13); yq_s16p +! (s * 14); yq_s16p +! (s * 15)]
              [xq_sp +! N0; xq_sp +! N1; xq_sp +! N2; xq_sp +! N3; xq_sp +! N4; xq_sp +! N5; xq_sp +! N6; xq_sp +! N7;
         xq_sp +! N8; xq_sp +! N9; xq_sp +! Na; xq_sp +! Nb; xq_sp +! Nc; xq_sp +! Nd; xq_sp +! Ne; xq_sp +! Nf]
       (dit16_fwdcore_fn).
Definition dit16_fwdcore (n s : nat) (x y W : ptr) : prog C unit :=
  let m := n / 16 in
  for_ m (fun p => for_step s 2 (fun q => vblock 2 (fun l => dit16_fwdcore_lane n s x y W p (q + l)))).

(** dit16_fwdcore1 : src/otfft_avxdit16.h:208-426, the arithmetic of one lane *)
Definition dit16_fwdcore1_fn (v : list C) : list C :=
  match v with
    | [w1p; w2p; w3p; w4p; w5p; w6p; w7p; w8p; w9p; wap; wbp; wcp; wdp; wep; wfp; y0; y1_in; y2_in; y3_in; y4_in;
    y5_in; y6_in; y7_in; y8_in; y9_in; ya_in; yb_in; yc_in; yd_in; ye_in; yf_in] =>
      let y1 := cmul w1p y1_in in
      let y2 := cmul w2p y2_in in
      let y3 := cmul w3p y3_in in
      let y4 := cmul w4p y4_in in
      let y5 := cmul w5p y5_in in
      let y6 := cmul w6p y6_in in
      let y7 := cmul w7p y7_in in
      let y8 := cmul w8p y8_in in
      let y9 := cmul w9p y9_in in
      let ya := cmul wap ya_in in
      let yb := cmul wbp yb_in in
      let yc := cmul wcp yc_in in
      let yd := cmul wdp yd_in in
      let ye := cmul wep ye_in in
      let yf := cmul wfp yf_in in
      let a08 := cadd y0 y8 in
      let s08 := csub y0 y8 in
      let a4c := cadd y4 yc in
      let s4c := csub y4 yc in
      let a2a := cadd y2 ya in
      let s2a := csub y2 ya in
      let a6e := cadd y6 ye in
      let s6e := csub y6 ye in
      let a19 := cadd y1 y9 in
      let s19 := csub y1 y9 in
      let a5d := cadd y5 yd in
      let s5d := csub y5 yd in
      let a3b := cadd y3 yb in
      let s3b := csub y3 yb in
      let a7f := cadd y7 yf in
      let s7f := csub y7 yf in
      let js4c := jx s4c in
      let js6e := jx s6e in
      let js5d := jx s5d in
      let js7f := jx s7f in
      let a08p1a4c := cadd a08 a4c in
      let s08mjs4c := csub s08 js4c in
      let a08m1a4c := csub a08 a4c in
      let s08pjs4c := cadd s08 js4c in
      let a2ap1a6e := cadd a2a a6e in
      let s2amjs6e := csub s2a js6e in
      let a2am1a6e := csub a2a a6e in
      let s2apjs6e := cadd s2a js6e in
      let a19p1a5d := cadd a19 a5d in
      let s19mjs5d := csub s19 js5d in
      let a19m1a5d := csub a19 a5d in
      let s19pjs5d := cadd s19 js5d in
      let a3bp1a7f := cadd a3b a7f in
      let s3bmjs7f := csub s3b js7f in
      let a3bm1a7f := csub a3b a7f in
      let s3bpjs7f := cadd s3b js7f in
      let w8_s2amjs6e := w8x s2amjs6e in
      let j_a2am1a6e := jx a2am1a6e in
      let v8_s2apjs6e := v8x s2apjs6e in
      let a08p1a4c_p1_a2ap1a6e := cadd a08p1a4c a2ap1a6e in
      let s08mjs4c_pw_s2amjs6e := cadd s08mjs4c w8_s2amjs6e in
      let a08m1a4c_mj_a2am1a6e := csub a08m1a4c j_a2am1a6e in
      let s08pjs4c_mv_s2apjs6e := csub s08pjs4c v8_s2apjs6e in
      let a08p1a4c_m1_a2ap1a6e := csub a08p1a4c a2ap1a6e in
      let s08mjs4c_mw_s2amjs6e := csub s08mjs4c w8_s2amjs6e in
      let a08m1a4c_pj_a2am1a6e := cadd a08m1a4c j_a2am1a6e in
      let s08pjs4c_pv_s2apjs6e := cadd s08pjs4c v8_s2apjs6e in
      let w8_s3bmjs7f := w8x s3bmjs7f in
      let j_a3bm1a7f := jx a3bm1a7f in
      let v8_s3bpjs7f := v8x s3bpjs7f in
      let a19p1a5d_p1_a3bp1a7f := cadd a19p1a5d a3bp1a7f in
      let s19mjs5d_pw_s3bmjs7f := cadd s19mjs5d w8_s3bmjs7f in
      let a19m1a5d_mj_a3bm1a7f := csub a19m1a5d j_a3bm1a7f in
      let s19pjs5d_mv_s3bpjs7f := csub s19pjs5d v8_s3bpjs7f in
      let a19p1a5d_m1_a3bp1a7f := csub a19p1a5d a3bp1a7f in
      let s19mjs5d_mw_s3bmjs7f := csub s19mjs5d w8_s3bmjs7f in
      let a19m1a5d_pj_a3bm1a7f := cadd a19m1a5d j_a3bm1a7f in
      let s19pjs5d_pv_s3bpjs7f := cadd s19pjs5d v8_s3bpjs7f in
      let h1_s19mjs5d_pw_s3bmjs7f := h1x s19mjs5d_pw_s3bmjs7f in
      let w8_a19m1a5d_mj_a3bm1a7f := w8x a19m1a5d_mj_a3bm1a7f in
      let h3_s19pjs5d_mv_s3bpjs7f := h3x s19pjs5d_mv_s3bpjs7f in
      let j_a19p1a5d_m1_a3bp1a7f := jx a19p1a5d_m1_a3bp1a7f in
      let hd_s19mjs5d_mw_s3bmjs7f := hdx s19mjs5d_mw_s3bmjs7f in
      let v8_a19m1a5d_pj_a3bm1a7f := v8x a19m1a5d_pj_a3bm1a7f in
      let hf_s19pjs5d_pv_s3bpjs7f := hfx s19pjs5d_pv_s3bpjs7f in
            [cadd a08p1a4c_p1_a2ap1a6e a19p1a5d_p1_a3bp1a7f; cadd s08mjs4c_pw_s2amjs6e h1_s19mjs5d_pw_s3bmjs7f; cadd
        a08m1a4c_mj_a2am1a6e w8_a19m1a5d_mj_a3bm1a7f; cadd s08pjs4c_mv_s2apjs6e h3_s19pjs5d_mv_s3bpjs7f; csub
        a08p1a4c_m1_a2ap1a6e j_a19p1a5d_m1_a3bp1a7f; csub s08mjs4c_mw_s2amjs6e hd_s19mjs5d_mw_s3bmjs7f; csub
        a08m1a4c_pj_a2am1a6e v8_a19m1a5d_pj_a3bm1a7f; csub s08pjs4c_pv_s2apjs6e hf_s19pjs5d_pv_s3bpjs7f; csub
        a08p1a4c_p1_a2ap1a6e a19p1a5d_p1_a3bp1a7f; csub s08mjs4c_pw_s2amjs6e h1_s19mjs5d_pw_s3bmjs7f; csub
        a08m1a4c_mj_a2am1a6e w8_a19m1a5d_mj_a3bm1a7f; csub s08pjs4c_mv_s2apjs6e h3_s19pjs5d_mv_s3bpjs7f; cadd
        a08p1a4c_m1_a2ap1a6e j_a19p1a5d_m1_a3bp1a7f; cadd s08mjs4c_mw_s2amjs6e hd_s19mjs5d_mw_s3bmjs7f; cadd
        a08m1a4c_pj_a2am1a6e v8_a19m1a5d_pj_a3bm1a7f; cadd s08pjs4c_pv_s2apjs6e hf_s19pjs5d_pv_s3bpjs7f]
  | _ => []
  end.
(** dit16_fwdcore1 : the addresses of one lane *)
Definition dit16_fwdcore1_lane (N : nat) (x y W : ptr) (p : nat) : lane C :=
  let N0 := 0 in
  let N1 := N / 16 in
  let N2 := N1 * 2 in
  let N3 := N1 * 3 in
  let N4 := N1 * 4 in
  let N5 := N1 * 5 in
  let N6 := N1 * 6 in
  let N7 := N1 * 7 in
  let N8 := N1 * 8 in
  let N9 := N1 * 9 in
  let Na := N1 * 10 in
  let Nb := N1 * 11 in
  let Nc := N1 * 12 in
  let Nd := N1 * 13 in
  let Ne := N1 * 14 in
  let Nf := N1 * 15 in
  let x_p := x +! p in
  let y_16p := y +! (16 * p) in
    Lane [twid 16 N 1 W p; twid 16 N 2 W p; twid 16 N 3 W p; twid 16 N 4 W p; twid 16 N 5 W p; twid 16 N 6 W p; twid
    16 N 7 W p; twid 16 N 8 W p; twid 16 N 9 W p; twid 16 N 10 W p; twid 16 N 11 W p; twid 16 N 12 W p; twid 16 N 13 W
    p; twid 16 N 14 W p; twid 16 N 15 W p; y_16p +! 0; y_16p +! (0 + 1); y_16p +! 2; y_16p +! (2 + 1); y_16p +! 4;
    y_16p +! (4 + 1); y_16p +! 6; y_16p +! (6 + 1); y_16p +! 8; y_16p +! (8 + 1); y_16p +! 10; y_16p +! (10 + 1);
    y_16p +! 12; y_16p +! (12 + 1); y_16p +! 14; y_16p +! (14 + 1)]
              [x_p +! N0; x_p +! N1; x_p +! N2; x_p +! N3; x_p +! N4; x_p +! N5; x_p +! N6; x_p +! N7; x_p +! N8; x_p
         +! N9; x_p +! Na; x_p +! Nb; x_p +! Nc; x_p +! Nd; x_p +! Ne; x_p +! Nf]
       (dit16_fwdcore1_fn).
Definition dit16_fwdcore1 (N : nat) (x y W : ptr) : prog C unit :=
  let N1 := N / 16 in
  for_step N1 2 (fun p => vblock 2 (fun l => dit16_fwdcore1_lane N x y W (p + l))).

(** dit16_fwdend16 : src/otfft_avxdit16.h:434-538, the arithmetic of one lane *)
Definition dit16_fwdend16_fn (N : nat) (mode : smode) (v : list C) : list C :=
  match v with
    | [z0_in; z1_in; z2_in; z3_in; z4_in; z5_in; z6_in; z7_in; z8_in; z9_in; za_in; zb_in; zc_in; zd_in; ze_in; zf_in]
    =>
      let z0 := scalepz N mode z0_in in
      let z1 := scalepz N mode z1_in in
      let z2 := scalepz N mode z2_in in
      let z3 := scalepz N mode z3_in in
      let z4 := scalepz N mode z4_in in
      let z5 := scalepz N mode z5_in in
      let z6 := scalepz N mode z6_in in
      let z7 := scalepz N mode z7_in in
      let z8 := scalepz N mode z8_in in
      let z9 := scalepz N mode z9_in in
      let za := scalepz N mode za_in in
      let zb := scalepz N mode zb_in in
      let zc := scalepz N mode zc_in in
      let zd := scalepz N mode zd_in in
      let ze := scalepz N mode ze_in in
      let zf := scalepz N mode zf_in in
      let a08 := cadd z0 z8 in
      let s08 := csub z0 z8 in
      let a4c := cadd z4 zc in
      let s4c := csub z4 zc in
      let a2a := cadd z2 za in
      let s2a := csub z2 za in
      let a6e := cadd z6 ze in
      let s6e := csub z6 ze in
      let a19 := cadd z1 z9 in
      let s19 := csub z1 z9 in
      let a5d := cadd z5 zd in
      let s5d := csub z5 zd in
      let a3b := cadd z3 zb in
      let s3b := csub z3 zb in
      let a7f := cadd z7 zf in
      let s7f := csub z7 zf in
      let js4c := jx s4c in
      let js6e := jx s6e in
      let js5d := jx s5d in
      let js7f := jx s7f in
      let a08p1a4c := cadd a08 a4c in
      let s08mjs4c := csub s08 js4c in
      let a08m1a4c := csub a08 a4c in
      let s08pjs4c := cadd s08 js4c in
      let a2ap1a6e := cadd a2a a6e in
      let s2amjs6e := csub s2a js6e in
      let a2am1a6e := csub a2a a6e in
      let s2apjs6e := cadd s2a js6e in
      let a19p1a5d := cadd a19 a5d in
      let s19mjs5d := csub s19 js5d in
      let a19m1a5d := csub a19 a5d in
      let s19pjs5d := cadd s19 js5d in
      let a3bp1a7f := cadd a3b a7f in
      let s3bmjs7f := csub s3b js7f in
      let a3bm1a7f := csub a3b a7f in
      let s3bpjs7f := cadd s3b js7f in
      let w8_s2amjs6e := w8x s2amjs6e in
      let j_a2am1a6e := jx a2am1a6e in
      let v8_s2apjs6e := v8x s2apjs6e in
      let a08p1a4c_p1_a2ap1a6e := cadd a08p1a4c a2ap1a6e in
      let s08mjs4c_pw_s2amjs6e := cadd s08mjs4c w8_s2amjs6e in
      let a08m1a4c_mj_a2am1a6e := csub a08m1a4c j_a2am1a6e in
      let s08pjs4c_mv_s2apjs6e := csub s08pjs4c v8_s2apjs6e in
      let a08p1a4c_m1_a2ap1a6e := csub a08p1a4c a2ap1a6e in
      let s08mjs4c_mw_s2amjs6e := csub s08mjs4c w8_s2amjs6e in
      let a08m1a4c_pj_a2am1a6e := cadd a08m1a4c j_a2am1a6e in
      let s08pjs4c_pv_s2apjs6e := cadd s08pjs4c v8_s2apjs6e in
      let w8_s3bmjs7f := w8x s3bmjs7f in
      let j_a3bm1a7f := jx a3bm1a7f in
      let v8_s3bpjs7f := v8x s3bpjs7f in
      let a19p1a5d_p1_a3bp1a7f := cadd a19p1a5d a3bp1a7f in
      let s19mjs5d_pw_s3bmjs7f := cadd s19mjs5d w8_s3bmjs7f in
      let a19m1a5d_mj_a3bm1a7f := csub a19m1a5d j_a3bm1a7f in
      let s19pjs5d_mv_s3bpjs7f := csub s19pjs5d v8_s3bpjs7f in
      let a19p1a5d_m1_a3bp1a7f := csub a19p1a5d a3bp1a7f in
      let s19mjs5d_mw_s3bmjs7f := csub s19mjs5d w8_s3bmjs7f in
      let a19m1a5d_pj_a3bm1a7f := cadd a19m1a5d j_a3bm1a7f in
      let s19pjs5d_pv_s3bpjs7f := cadd s19pjs5d v8_s3bpjs7f in
      let h1_s19mjs5d_pw_s3bmjs7f := h1x s19mjs5d_pw_s3bmjs7f in
      let w8_a19m1a5d_mj_a3bm1a7f := w8x a19m1a5d_mj_a3bm1a7f in
      let h3_s19pjs5d_mv_s3bpjs7f := h3x s19pjs5d_mv_s3bpjs7f in
      let j_a19p1a5d_m1_a3bp1a7f := jx a19p1a5d_m1_a3bp1a7f in
      let hd_s19mjs5d_mw_s3bmjs7f := hdx s19mjs5d_mw_s3bmjs7f in
      let v8_a19m1a5d_pj_a3bm1a7f := v8x a19m1a5d_pj_a3bm1a7f in
      let hf_s19pjs5d_pv_s3bpjs7f := hfx s19pjs5d_pv_s3bpjs7f in
            [cadd a08p1a4c_p1_a2ap1a6e a19p1a5d_p1_a3bp1a7f; cadd s08mjs4c_pw_s2amjs6e h1_s19mjs5d_pw_s3bmjs7f; cadd
        a08m1a4c_mj_a2am1a6e w8_a19m1a5d_mj_a3bm1a7f; cadd s08pjs4c_mv_s2apjs6e h3_s19pjs5d_mv_s3bpjs7f; csub
        a08p1a4c_m1_a2ap1a6e j_a19p1a5d_m1_a3bp1a7f; csub s08mjs4c_mw_s2amjs6e hd_s19mjs5d_mw_s3bmjs7f; csub
        a08m1a4c_pj_a2am1a6e v8_a19m1a5d_pj_a3bm1a7f; csub s08pjs4c_pv_s2apjs6e hf_s19pjs5d_pv_s3bpjs7f; csub
        a08p1a4c_p1_a2ap1a6e a19p1a5d_p1_a3bp1a7f; csub s08mjs4c_pw_s2amjs6e h1_s19mjs5d_pw_s3bmjs7f; csub
        a08m1a4c_mj_a2am1a6e w8_a19m1a5d_mj_a3bm1a7f; csub s08pjs4c_mv_s2apjs6e h3_s19pjs5d_mv_s3bpjs7f; cadd
        a08p1a4c_m1_a2ap1a6e j_a19p1a5d_m1_a3bp1a7f; cadd s08mjs4c_mw_s2amjs6e hd_s19mjs5d_mw_s3bmjs7f; cadd
        a08m1a4c_pj_a2am1a6e v8_a19m1a5d_pj_a3bm1a7f; cadd s08pjs4c_pv_s2apjs6e hf_s19pjs5d_pv_s3bpjs7f]
  | _ => []
  end.
(** dit16_fwdend16 : the addresses of one lane *)
Definition dit16_fwdend16_lane (mode : smode) (s : nat) (eo : bool) (x y : ptr) (q : nat) : lane C :=
  let N := 16 * s in
  let z := if eo then y else x in
  let xq := x +! q in
  let zq := z +! q in
    Lane [zq +! (s * 0); zq +! (s * 1); zq +! (s * 2); zq +! (s * 3); zq +! (s * 4); zq +! (s * 5); zq +! (s * 6); zq
    +! (s * 7); zq +! (s * 8); zq +! (s * 9); zq +! (s * 10); zq +! (s * 11); zq +! (s * 12); zq +! (s * 13); zq +! (s
    * 14); zq +! (s * 15)]
              [xq +! (s * 0); xq +! (s * 1); xq +! (s * 2); xq +! (s * 3); xq +! (s * 4); xq +! (s * 5); xq +! (s *
         6); xq +! (s * 7); xq +! (s * 8); xq +! (s * 9); xq +! (s * 10); xq +! (s * 11); xq +! (s * 12); xq +! (s *
         13); xq +! (s * 14); xq +! (s * 15)]
       (dit16_fwdend16_fn N mode).
Definition dit16_fwdend16 (mode : smode) (s : nat) (eo : bool) (x y : ptr) : prog C unit :=
  for_step s 2 (fun q => vblock 2 (fun l => dit16_fwdend16_lane mode s eo x y (q + l))).

(** dit16_fwdend16_1 : src/otfft_avxdit16.h:540-638, the arithmetic of one lane *)
Definition dit16_fwdend16_1_fn (mode : smode) (v : list C) : list C :=
  match v with
    | [z0_in; z1_in; z2_in; z3_in; z4_in; z5_in; z6_in; z7_in; z8_in; z9_in; za_in; zb_in; zc_in; zd_in; ze_in; zf_in]
    =>
      let z0 := scalepz 16 mode z0_in in
      let z1 := scalepz 16 mode z1_in in
      let z2 := scalepz 16 mode z2_in in
      let z3 := scalepz 16 mode z3_in in
      let z4 := scalepz 16 mode z4_in in
      let z5 := scalepz 16 mode z5_in in
      let z6 := scalepz 16 mode z6_in in
      let z7 := scalepz 16 mode z7_in in
      let z8 := scalepz 16 mode z8_in in
      let z9 := scalepz 16 mode z9_in in
      let za := scalepz 16 mode za_in in
      let zb := scalepz 16 mode zb_in in
      let zc := scalepz 16 mode zc_in in
      let zd := scalepz 16 mode zd_in in
      let ze := scalepz 16 mode ze_in in
      let zf := scalepz 16 mode zf_in in
      let a08 := cadd z0 z8 in
      let s08 := csub z0 z8 in
      let a4c := cadd z4 zc in
      let s4c := csub z4 zc in
      let a2a := cadd z2 za in
      let s2a := csub z2 za in
      let a6e := cadd z6 ze in
      let s6e := csub z6 ze in
      let a19 := cadd z1 z9 in
      let s19 := csub z1 z9 in
      let a5d := cadd z5 zd in
      let s5d := csub z5 zd in
      let a3b := cadd z3 zb in
      let s3b := csub z3 zb in
      let a7f := cadd z7 zf in
      let s7f := csub z7 zf in
      let js4c := jx s4c in
      let js6e := jx s6e in
      let js5d := jx s5d in
      let js7f := jx s7f in
      let a08p1a4c := cadd a08 a4c in
      let s08mjs4c := csub s08 js4c in
      let a08m1a4c := csub a08 a4c in
      let s08pjs4c := cadd s08 js4c in
      let a2ap1a6e := cadd a2a a6e in
      let s2amjs6e := csub s2a js6e in
      let a2am1a6e := csub a2a a6e in
      let s2apjs6e := cadd s2a js6e in
      let a19p1a5d := cadd a19 a5d in
      let s19mjs5d := csub s19 js5d in
      let a19m1a5d := csub a19 a5d in
      let s19pjs5d := cadd s19 js5d in
      let a3bp1a7f := cadd a3b a7f in
      let s3bmjs7f := csub s3b js7f in
      let a3bm1a7f := csub a3b a7f in
      let s3bpjs7f := cadd s3b js7f in
      let w8_s2amjs6e := w8x s2amjs6e in
      let j_a2am1a6e := jx a2am1a6e in
      let v8_s2apjs6e := v8x s2apjs6e in
      let a08p1a4c_p1_a2ap1a6e := cadd a08p1a4c a2ap1a6e in
      let s08mjs4c_pw_s2amjs6e := cadd s08mjs4c w8_s2amjs6e in
      let a08m1a4c_mj_a2am1a6e := csub a08m1a4c j_a2am1a6e in
      let s08pjs4c_mv_s2apjs6e := csub s08pjs4c v8_s2apjs6e in
      let a08p1a4c_m1_a2ap1a6e := csub a08p1a4c a2ap1a6e in
      let s08mjs4c_mw_s2amjs6e := csub s08mjs4c w8_s2amjs6e in
      let a08m1a4c_pj_a2am1a6e := cadd a08m1a4c j_a2am1a6e in
      let s08pjs4c_pv_s2apjs6e := cadd s08pjs4c v8_s2apjs6e in
      let w8_s3bmjs7f := w8x s3bmjs7f in
      let j_a3bm1a7f := jx a3bm1a7f in
      let v8_s3bpjs7f := v8x s3bpjs7f in
      let a19p1a5d_p1_a3bp1a7f := cadd a19p1a5d a3bp1a7f in
      let s19mjs5d_pw_s3bmjs7f := cadd s19mjs5d w8_s3bmjs7f in
      let a19m1a5d_mj_a3bm1a7f := csub a19m1a5d j_a3bm1a7f in
      let s19pjs5d_mv_s3bpjs7f := csub s19pjs5d v8_s3bpjs7f in
      let a19p1a5d_m1_a3bp1a7f := csub a19p1a5d a3bp1a7f in
      let s19mjs5d_mw_s3bmjs7f := csub s19mjs5d w8_s3bmjs7f in
      let a19m1a5d_pj_a3bm1a7f := cadd a19m1a5d j_a3bm1a7f in
      let s19pjs5d_pv_s3bpjs7f := cadd s19pjs5d v8_s3bpjs7f in
      let h1_s19mjs5d_pw_s3bmjs7f := h1x s19mjs5d_pw_s3bmjs7f in
      let w8_a19m1a5d_mj_a3bm1a7f := w8x a19m1a5d_mj_a3bm1a7f in
      let h3_s19pjs5d_mv_s3bpjs7f := h3x s19pjs5d_mv_s3bpjs7f in
      let j_a19p1a5d_m1_a3bp1a7f := jx a19p1a5d_m1_a3bp1a7f in
      let hd_s19mjs5d_mw_s3bmjs7f := hdx s19mjs5d_mw_s3bmjs7f in
      let v8_a19m1a5d_pj_a3bm1a7f := v8x a19m1a5d_pj_a3bm1a7f in
      let hf_s19pjs5d_pv_s3bpjs7f := hfx s19pjs5d_pv_s3bpjs7f in
            [cadd a08p1a4c_p1_a2ap1a6e a19p1a5d_p1_a3bp1a7f; cadd s08mjs4c_pw_s2amjs6e h1_s19mjs5d_pw_s3bmjs7f; cadd
        a08m1a4c_mj_a2am1a6e w8_a19m1a5d_mj_a3bm1a7f; cadd s08pjs4c_mv_s2apjs6e h3_s19pjs5d_mv_s3bpjs7f; csub
        a08p1a4c_m1_a2ap1a6e j_a19p1a5d_m1_a3bp1a7f; csub s08mjs4c_mw_s2amjs6e hd_s19mjs5d_mw_s3bmjs7f; csub
        a08m1a4c_pj_a2am1a6e v8_a19m1a5d_pj_a3bm1a7f; csub s08pjs4c_pv_s2apjs6e hf_s19pjs5d_pv_s3bpjs7f; csub
        a08p1a4c_p1_a2ap1a6e a19p1a5d_p1_a3bp1a7f; csub s08mjs4c_pw_s2amjs6e h1_s19mjs5d_pw_s3bmjs7f; csub
        a08m1a4c_mj_a2am1a6e w8_a19m1a5d_mj_a3bm1a7f; csub s08pjs4c_mv_s2apjs6e h3_s19pjs5d_mv_s3bpjs7f; cadd
        a08p1a4c_m1_a2ap1a6e j_a19p1a5d_m1_a3bp1a7f; cadd s08mjs4c_mw_s2amjs6e hd_s19mjs5d_mw_s3bmjs7f; cadd
        a08m1a4c_pj_a2am1a6e v8_a19m1a5d_pj_a3bm1a7f; cadd s08pjs4c_pv_s2apjs6e hf_s19pjs5d_pv_s3bpjs7f]
  | _ => []
  end.
(** dit16_fwdend16_1 : the addresses of one lane *)
Definition dit16_fwdend16_1_lane (mode : smode) (eo : bool) (x y : ptr) : lane C :=
  let z := if eo then y else x in
    Lane [z +! 0; z +! 1; z +! 2; z +! 3; z +! 4; z +! 5; z +! 6; z +! 7; z +! 8; z +! 9; z +! 10; z +! 11; z +! 12; z
    +! 13; z +! 14; z +! 15]
              [x +! 0; x +! 1; x +! 2; x +! 3; x +! 4; x +! 5; x +! 6; x +! 7; x +! 8; x +! 9; x +! 10; x +! 11; x +!
         12; x +! 13; x +! 14; x +! 15]
       (dit16_fwdend16_1_fn mode).
Definition dit16_fwdend16_1 (mode : smode) (eo : bool) (x y : ptr) : prog C unit :=
  lblock (dit16_fwdend16_1_lane mode eo x y).

(** dit16_invcore : src/otfft_avxdit16.h:694-868, the arithmetic of one lane *)
Definition dit16_invcore_fn (v : list C) : list C :=
  match v with
    | [w1p_in; w2p_in; w3p_in; w4p_in; w5p_in; w6p_in; w7p_in; w8p_in; w9p_in; wap_in; wbp_in; wcp_in; wdp_in; wep_in;
    wfp_in; y0; y1_in; y2_in; y3_in; y4_in; y5_in; y6_in; y7_in; y8_in; y9_in; ya_in; yb_in; yc_in; yd_in; ye_in;
    yf_in] =>
      let w1p := cconj w1p_in in
      let w2p := cconj w2p_in in
      let w3p := cconj w3p_in in
      let w4p := cconj w4p_in in
      let w5p := cconj w5p_in in
      let w6p := cconj w6p_in in
      let w7p := cconj w7p_in in
      let w8p := cconj w8p_in in
      let w9p := cconj w9p_in in
      let wap := cconj wap_in in
      let wbp := cconj wbp_in in
      let wcp := cconj wcp_in in
      let wdp := cconj wdp_in in
      let wep := cconj wep_in in
      let wfp := cconj wfp_in in
      let y1 := cmul w1p y1_in in
      let y2 := cmul w2p y2_in in
      let y3 := cmul w3p y3_in in
      let y4 := cmul w4p y4_in in
      let y5 := cmul w5p y5_in in
      let y6 := cmul w6p y6_in in
      let y7 := cmul w7p y7_in in
      let y8 := cmul w8p y8_in in
      let y9 := cmul w9p y9_in in
      let ya := cmul wap ya_in in
      let yb := cmul wbp yb_in in
      let yc := cmul wcp yc_in in
      let yd := cmul wdp yd_in in
      let ye := cmul wep ye_in in
      let yf := cmul wfp yf_in in
      let a08 := cadd y0 y8 in
      let s08 := csub y0 y8 in
      let a4c := cadd y4 yc in
      let s4c := csub y4 yc in
      let a2a := cadd y2 ya in
      let s2a := csub y2 ya in
      let a6e := cadd y6 ye in
      let s6e := csub y6 ye in
      let a19 := cadd y1 y9 in
      let s19 := csub y1 y9 in
      let a5d := cadd y5 yd in
      let s5d := csub y5 yd in
      let a3b := cadd y3 yb in
      let s3b := csub y3 yb in
      let a7f := cadd y7 yf in
      let s7f := csub y7 yf in
      let js4c := jx s4c in
      let js6e := jx s6e in
      let js5d := jx s5d in
      let js7f := jx s7f in
      let a08p1a4c := cadd a08 a4c in
      let s08mjs4c := csub s08 js4c in
      let a08m1a4c := csub a08 a4c in
      let s08pjs4c := cadd s08 js4c in
      let a2ap1a6e := cadd a2a a6e in
      let s2amjs6e := csub s2a js6e in
      let a2am1a6e := csub a2a a6e in
      let s2apjs6e := cadd s2a js6e in
      let a19p1a5d := cadd a19 a5d in
      let s19mjs5d := csub s19 js5d in
      let a19m1a5d := csub a19 a5d in
      let s19pjs5d := cadd s19 js5d in
      let a3bp1a7f := cadd a3b a7f in
      let s3bmjs7f := csub s3b js7f in
      let a3bm1a7f := csub a3b a7f in
      let s3bpjs7f := cadd s3b js7f in
      let w8_s2amjs6e := w8x s2amjs6e in
      let j_a2am1a6e := jx a2am1a6e in
      let v8_s2apjs6e := v8x s2apjs6e in
      let a08p1a4c_p1_a2ap1a6e := cadd a08p1a4c a2ap1a6e in
      let s08mjs4c_pw_s2amjs6e := cadd s08mjs4c w8_s2amjs6e in
      let a08m1a4c_mj_a2am1a6e := csub a08m1a4c j_a2am1a6e in
      let s08pjs4c_mv_s2apjs6e := csub s08pjs4c v8_s2apjs6e in
      let a08p1a4c_m1_a2ap1a6e := csub a08p1a4c a2ap1a6e in
      let s08mjs4c_mw_s2amjs6e := csub s08mjs4c w8_s2amjs6e in
      let a08m1a4c_pj_a2am1a6e := cadd a08m1a4c j_a2am1a6e in
      let s08pjs4c_pv_s2apjs6e := cadd s08pjs4c v8_s2apjs6e in
      let w8_s3bmjs7f := w8x s3bmjs7f in
      let j_a3bm1a7f := jx a3bm1a7f in
      let v8_s3bpjs7f := v8x s3bpjs7f in
      let a19p1a5d_p1_a3bp1a7f := cadd a19p1a5d a3bp1a7f in
      let s19mjs5d_pw_s3bmjs7f := cadd s19mjs5d w8_s3bmjs7f in
      let a19m1a5d_mj_a3bm1a7f := csub a19m1a5d j_a3bm1a7f in
      let s19pjs5d_mv_s3bpjs7f := csub s19pjs5d v8_s3bpjs7f in
      let a19p1a5d_m1_a3bp1a7f := csub a19p1a5d a3bp1a7f in
      let s19mjs5d_mw_s3bmjs7f := csub s19mjs5d w8_s3bmjs7f in
      let a19m1a5d_pj_a3bm1a7f := cadd a19m1a5d j_a3bm1a7f in
      let s19pjs5d_pv_s3bpjs7f := cadd s19pjs5d v8_s3bpjs7f in
      let hf_s19pjs5d_pv_s3bpjs7f := hfx s19pjs5d_pv_s3bpjs7f in
      let v8_a19m1a5d_pj_a3bm1a7f := v8x a19m1a5d_pj_a3bm1a7f in
      let hd_s19mjs5d_mw_s3bmjs7f := hdx s19mjs5d_mw_s3bmjs7f in
      let j_a19p1a5d_m1_a3bp1a7f := jx a19p1a5d_m1_a3bp1a7f in
      let h3_s19pjs5d_mv_s3bpjs7f := h3x s19pjs5d_mv_s3bpjs7f in
      let w8_a19m1a5d_mj_a3bm1a7f := w8x a19m1a5d_mj_a3bm1a7f in
      let h1_s19mjs5d_pw_s3bmjs7f := h1x s19mjs5d_pw_s3bmjs7f in
            [cadd a08p1a4c_p1_a2ap1a6e a19p1a5d_p1_a3bp1a7f; cadd s08pjs4c_pv_s2apjs6e hf_s19pjs5d_pv_s3bpjs7f; cadd
        a08m1a4c_pj_a2am1a6e v8_a19m1a5d_pj_a3bm1a7f; cadd s08mjs4c_mw_s2amjs6e hd_s19mjs5d_mw_s3bmjs7f; cadd
        a08p1a4c_m1_a2ap1a6e j_a19p1a5d_m1_a3bp1a7f; csub s08pjs4c_mv_s2apjs6e h3_s19pjs5d_mv_s3bpjs7f; csub
        a08m1a4c_mj_a2am1a6e w8_a19m1a5d_mj_a3bm1a7f; csub s08mjs4c_pw_s2amjs6e h1_s19mjs5d_pw_s3bmjs7f; csub
        a08p1a4c_p1_a2ap1a6e a19p1a5d_p1_a3bp1a7f; csub s08pjs4c_pv_s2apjs6e hf_s19pjs5d_pv_s3bpjs7f; csub
        a08m1a4c_pj_a2am1a6e v8_a19m1a5d_pj_a3bm1a7f; csub s08mjs4c_mw_s2amjs6e hd_s19mjs5d_mw_s3bmjs7f; csub
        a08p1a4c_m1_a2ap1a6e j_a19p1a5d_m1_a3bp1a7f; cadd s08pjs4c_mv_s2apjs6e h3_s19pjs5d_mv_s3bpjs7f; cadd
        a08m1a4c_mj_a2am1a6e w8_a19m1a5d_mj_a3bm1a7f; cadd s08mjs4c_pw_s2amjs6e h1_s19mjs5d_pw_s3bmjs7f]
  | _ => []
  end.
(** dit16_invcore : the addresses of one lane *)
Definition dit16_invcore_lane (n s : nat) (x y W : ptr) (p q : nat) : lane C :=
  let N := n * s in
  let N0 := 0 in
  let N1 := N / 16 in
  let N2 := N1 * 2 in
  let N3 := N1 * 3 in
  let N4 := N1 * 4 in
  let N5 := N1 * 5 in
  let N6 := N1 * 6 in
  let N7 := N1 * 7 in
  let N8 := N1 * 8 in
  let N9 := N1 * 9 in
  let Na := N1 * 10 in
  let Nb := N1 * 11 in
  let Nc := N1 * 12 in
  let Nd := N1 * 13 in
  let Ne := N1 * 14 in
  let Nf := N1 * 15 in
  let sp := s * p in
  let s16p := 16 * sp in
  let xq_sp := x +! (q + sp) in
  let yq_s16p := y +! (q + s16p) in
    Lane [twidT 16 N 1 W sp; twidT 16 N 2 W sp; twidT 16 N 3 W sp; twidT 16 N 4 W sp; twidT 16 N 5 W sp; twidT 16 N 6
    W sp; twidT 16 N 7 W sp; twidT 16 N 8 W sp; twidT 16 N 9 W sp; twidT 16 N 10 W sp; twidT 16 N 11 W sp; twidT 16 N
    12 W sp; twidT 16 N 13 W sp; twidT 16 N 14 W sp; twidT 16 N 15 W sp; yq_s16p +! (s * 0); yq_s16p +! (s * 1);
    yq_s16p +! (s * 2); yq_s16p +! (s * 3); yq_s16p +! (s * 4); yq_s16p +! (s * 5); yq_s16p +! (s * 6); yq_s16p +! (s
    * 7); yq_s16p +! (s * 8); yq_s16p +! (s * 9); yq_s16p +! (s * 10); yq_s16p +! (s * 11); yq_s16p +! (s * 12);
    yq_s16p +! (s * 13); yq_s16p +! (s * 14); yq_s16p +! (s * 15)]
              [xq_sp +! N0; xq_sp +! N1; xq_sp +! N2; xq_sp +! N3; xq_sp +! N4; xq_sp +! N5; xq_sp +! N6; xq_sp +! N7;
         xq_sp +! N8; xq_sp +! N9; xq_sp +! Na; xq_sp +! Nb; xq_sp +! Nc; xq_sp +! Nd; xq_sp +! Ne; xq_sp +! Nf]
       (dit16_invcore_fn).
Definition dit16_invcore (n s : nat) (x y W : ptr) : prog C unit :=
  let m := n / 16 in
  for_ m (fun p => for_step s 2 (fun q => vblock 2 (fun l => dit16_invcore_lane n s x y W p (q + l)))).

(** dit16_invcore1 : src/otfft_avxdit16.h:870-1088, the arithmetic of one lane *)
Definition dit16_invcore1_fn (v : list C) : list C :=
  match v with
    | [w1p_in; w2p_in; w3p_in; w4p_in; w5p_in; w6p_in; w7p_in; w8p_in; w9p_in; wap_in; wbp_in; wcp_in; wdp_in; wep_in;
    wfp_in; y0; y1_in; y2_in; y3_in; y4_in; y5_in; y6_in; y7_in; y8_in; y9_in; ya_in; yb_in; yc_in; yd_in; ye_in;
    yf_in] =>
      let w1p := cconj w1p_in in
      let w2p := cconj w2p_in in
      let w3p := cconj w3p_in in
      let w4p := cconj w4p_in in
      let w5p := cconj w5p_in in
      let w6p := cconj w6p_in in
      let w7p := cconj w7p_in in
      let w8p := cconj w8p_in in
      let w9p := cconj w9p_in in
      let wap := cconj wap_in in
      let wbp := cconj wbp_in in
      let wcp := cconj wcp_in in
      let wdp := cconj wdp_in in
      let wep := cconj wep_in in
      let wfp := cconj wfp_in in
      let y1 := cmul w1p y1_in in
      let y2 := cmul w2p y2_in in
      let y3 := cmul w3p y3_in in
      let y4 := cmul w4p y4_in in
      let y5 := cmul w5p y5_in in
      let y6 := cmul w6p y6_in in
      let y7 := cmul w7p y7_in in
      let y8 := cmul w8p y8_in in
      let y9 := cmul w9p y9_in in
      let ya := cmul wap ya_in in
      let yb := cmul wbp yb_in in
      let yc := cmul wcp yc_in in
      let yd := cmul wdp yd_in in
      let ye := cmul wep ye_in in
      let yf := cmul wfp yf_in in
      let a08 := cadd y0 y8 in
      let s08 := csub y0 y8 in
      let a4c := cadd y4 yc in
      let s4c := csub y4 yc in
      let a2a := cadd y2 ya in
      let s2a := csub y2 ya in
      let a6e := cadd y6 ye in
      let s6e := csub y6 ye in
      let a19 := cadd y1 y9 in
      let s19 := csub y1 y9 in
      let a5d := cadd y5 yd in
      let s5d := csub y5 yd in
      let a3b := cadd y3 yb in
      let s3b := csub y3 yb in
      let a7f := cadd y7 yf in
      let s7f := csub y7 yf in
      let js4c := jx s4c in
      let js6e := jx s6e in
      let js5d := jx s5d in
      let js7f := jx s7f in
      let a08p1a4c := cadd a08 a4c in
      let s08mjs4c := csub s08 js4c in
      let a08m1a4c := csub a08 a4c in
      let s08pjs4c := cadd s08 js4c in
      let a2ap1a6e := cadd a2a a6e in
      let s2amjs6e := csub s2a js6e in
      let a2am1a6e := csub a2a a6e in
      let s2apjs6e := cadd s2a js6e in
      let a19p1a5d := cadd a19 a5d in
      let s19mjs5d := csub s19 js5d in
      let a19m1a5d := csub a19 a5d in
      let s19pjs5d := cadd s19 js5d in
      let a3bp1a7f := cadd a3b a7f in
      let s3bmjs7f := csub s3b js7f in
      let a3bm1a7f := csub a3b a7f in
      let s3bpjs7f := cadd s3b js7f in
      let w8_s2amjs6e := w8x s2amjs6e in
      let j_a2am1a6e := jx a2am1a6e in
      let v8_s2apjs6e := v8x s2apjs6e in
      let a08p1a4c_p1_a2ap1a6e := cadd a08p1a4c a2ap1a6e in
      let s08mjs4c_pw_s2amjs6e := cadd s08mjs4c w8_s2amjs6e in
      let a08m1a4c_mj_a2am1a6e := csub a08m1a4c j_a2am1a6e in
      let s08pjs4c_mv_s2apjs6e := csub s08pjs4c v8_s2apjs6e in
      let a08p1a4c_m1_a2ap1a6e := csub a08p1a4c a2ap1a6e in
      let s08mjs4c_mw_s2amjs6e := csub s08mjs4c w8_s2amjs6e in
      let a08m1a4c_pj_a2am1a6e := cadd a08m1a4c j_a2am1a6e in
      let s08pjs4c_pv_s2apjs6e := cadd s08pjs4c v8_s2apjs6e in
      let w8_s3bmjs7f := w8x s3bmjs7f in
      let j_a3bm1a7f := jx a3bm1a7f in
      let v8_s3bpjs7f := v8x s3bpjs7f in
      let a19p1a5d_p1_a3bp1a7f := cadd a19p1a5d a3bp1a7f in
      let s19mjs5d_pw_s3bmjs7f := cadd s19mjs5d w8_s3bmjs7f in
      let a19m1a5d_mj_a3bm1a7f := csub a19m1a5d j_a3bm1a7f in
      let s19pjs5d_mv_s3bpjs7f := csub s19pjs5d v8_s3bpjs7f in
      let a19p1a5d_m1_a3bp1a7f := csub a19p1a5d a3bp1a7f in
      let s19mjs5d_mw_s3bmjs7f := csub s19mjs5d w8_s3bmjs7f in
      let a19m1a5d_pj_a3bm1a7f := cadd a19m1a5d j_a3bm1a7f in
      let s19pjs5d_pv_s3bpjs7f := cadd s19pjs5d v8_s3bpjs7f in
      let hf_s19pjs5d_pv_s3bpjs7f := hfx s19pjs5d_pv_s3bpjs7f in
      let v8_a19m1a5d_pj_a3bm1a7f := v8x a19m1a5d_pj_a3bm1a7f in
      let hd_s19mjs5d_mw_s3bmjs7f := hdx s19mjs5d_mw_s3bmjs7f in
      let j_a19p1a5d_m1_a3bp1a7f := jx a19p1a5d_m1_a3bp1a7f in
      let h3_s19pjs5d_mv_s3bpjs7f := h3x s19pjs5d_mv_s3bpjs7f in
      let w8_a19m1a5d_mj_a3bm1a7f := w8x a19m1a5d_mj_a3bm1a7f in
      let h1_s19mjs5d_pw_s3bmjs7f := h1x s19mjs5d_pw_s3bmjs7f in
            [cadd a08p1a4c_p1_a2ap1a6e a19p1a5d_p1_a3bp1a7f; cadd s08pjs4c_pv_s2apjs6e hf_s19pjs5d_pv_s3bpjs7f; cadd
        a08m1a4c_pj_a2am1a6e v8_a19m1a5d_pj_a3bm1a7f; cadd s08mjs4c_mw_s2amjs6e hd_s19mjs5d_mw_s3bmjs7f; cadd
        a08p1a4c_m1_a2ap1a6e j_a19p1a5d_m1_a3bp1a7f; csub s08pjs4c_mv_s2apjs6e h3_s19pjs5d_mv_s3bpjs7f; csub
        a08m1a4c_mj_a2am1a6e w8_a19m1a5d_mj_a3bm1a7f; csub s08mjs4c_pw_s2amjs6e h1_s19mjs5d_pw_s3bmjs7f; csub
        a08p1a4c_p1_a2ap1a6e a19p1a5d_p1_a3bp1a7f; csub s08pjs4c_pv_s2apjs6e hf_s19pjs5d_pv_s3bpjs7f; csub
        a08m1a4c_pj_a2am1a6e v8_a19m1a5d_pj_a3bm1a7f; csub s08mjs4c_mw_s2amjs6e hd_s19mjs5d_mw_s3bmjs7f; csub
        a08p1a4c_m1_a2ap1a6e j_a19p1a5d_m1_a3bp1a7f; cadd s08pjs4c_mv_s2apjs6e h3_s19pjs5d_mv_s3bpjs7f; cadd
        a08m1a4c_mj_a2am1a6e w8_a19m1a5d_mj_a3bm1a7f; cadd s08mjs4c_pw_s2amjs6e h1_s19mjs5d_pw_s3bmjs7f]
  | _ => []
  end.
(** dit16_invcore1 : the addresses of one lane *)
Definition dit16_invcore1_lane (N : nat) (x y W : ptr) (p : nat) : lane C :=
  let N0 := 0 in
  let N1 := N / 16 in
  let N2 := N1 * 2 in
  let N3 := N1 * 3 in
  let N4 := N1 * 4 in
  let N5 := N1 * 5 in
  let N6 := N1 * 6 in
  let N7 := N1 * 7 in
  let N8 := N1 * 8 in
  let N9 := N1 * 9 in
  let Na := N1 * 10 in
  let Nb := N1 * 11 in
  let Nc := N1 * 12 in
  let Nd := N1 * 13 in
  let Ne := N1 * 14 in
  let Nf := N1 * 15 in
  let x_p := x +! p in
  let y_16p := y +! (16 * p) in
    Lane [twid 16 N 1 W p; twid 16 N 2 W p; twid 16 N 3 W p; twid 16 N 4 W p; twid 16 N 5 W p; twid 16 N 6 W p; twid
    16 N 7 W p; twid 16 N 8 W p; twid 16 N 9 W p; twid 16 N 10 W p; twid 16 N 11 W p; twid 16 N 12 W p; twid 16 N 13 W
    p; twid 16 N 14 W p; twid 16 N 15 W p; y_16p +! 0; y_16p +! (0 + 1); y_16p +! 2; y_16p +! (2 + 1); y_16p +! 4;
    y_16p +! (4 + 1); y_16p +! 6; y_16p +! (6 + 1); y_16p +! 8; y_16p +! (8 + 1); y_16p +! 10; y_16p +! (10 + 1);
    y_16p +! 12; y_16p +! (12 + 1); y_16p +! 14; y_16p +! (14 + 1)]
              [x_p +! N0; x_p +! N1; x_p +! N2; x_p +! N3; x_p +! N4; x_p +! N5; x_p +! N6; x_p +! N7; x_p +! N8; x_p
         +! N9; x_p +! Na; x_p +! Nb; x_p +! Nc; x_p +! Nd; x_p +! Ne; x_p +! Nf]
       (dit16_invcore1_fn).
Definition dit16_invcore1 (N : nat) (x y W : ptr) : prog C unit :=
  let N1 := N / 16 in
  for_step N1 2 (fun p => vblock 2 (fun l => dit16_invcore1_lane N x y W (p + l))).

(** dit16_invend16 : src/otfft_avxdit16.h:1096-1200, the arithmetic of one lane *)
Definition dit16_invend16_fn (N : nat) (mode : smode) (v : list C) : list C :=
  match v with
    | [z0_in; z1_in; z2_in; z3_in; z4_in; z5_in; z6_in; z7_in; z8_in; z9_in; za_in; zb_in; zc_in; zd_in; ze_in; zf_in]
    =>
      let z0 := scalepz N mode z0_in in
      let z1 := scalepz N mode z1_in in
      let z2 := scalepz N mode z2_in in
      let z3 := scalepz N mode z3_in in
      let z4 := scalepz N mode z4_in in
      let z5 := scalepz N mode z5_in in
      let z6 := scalepz N mode z6_in in
      let z7 := scalepz N mode z7_in in
      let z8 := scalepz N mode z8_in in
      let z9 := scalepz N mode z9_in in
      let za := scalepz N mode za_in in
      let zb := scalepz N mode zb_in in
      let zc := scalepz N mode zc_in in
      let zd := scalepz N mode zd_in in
      let ze := scalepz N mode ze_in in
      let zf := scalepz N mode zf_in in
      let a08 := cadd z0 z8 in
      let s08 := csub z0 z8 in
      let a4c := cadd z4 zc in
      let s4c := csub z4 zc in
      let a2a := cadd z2 za in
      let s2a := csub z2 za in
      let a6e := cadd z6 ze in
      let s6e := csub z6 ze in
      let a19 := cadd z1 z9 in
      let s19 := csub z1 z9 in
      let a5d := cadd z5 zd in
      let s5d := csub z5 zd in
      let a3b := cadd z3 zb in
      let s3b := csub z3 zb in
      let a7f := cadd z7 zf in
      let s7f := csub z7 zf in
      let js4c := jx s4c in
      let js6e := jx s6e in
      let js5d := jx s5d in
      let js7f := jx s7f in
      let a08p1a4c := cadd a08 a4c in
      let s08mjs4c := csub s08 js4c in
      let a08m1a4c := csub a08 a4c in
      let s08pjs4c := cadd s08 js4c in
      let a2ap1a6e := cadd a2a a6e in
      let s2amjs6e := csub s2a js6e in
      let a2am1a6e := csub a2a a6e in
      let s2apjs6e := cadd s2a js6e in
      let a19p1a5d := cadd a19 a5d in
      let s19mjs5d := csub s19 js5d in
      let a19m1a5d := csub a19 a5d in
      let s19pjs5d := cadd s19 js5d in
      let a3bp1a7f := cadd a3b a7f in
      let s3bmjs7f := csub s3b js7f in
      let a3bm1a7f := csub a3b a7f in
      let s3bpjs7f := cadd s3b js7f in
      let w8_s2amjs6e := w8x s2amjs6e in
      let j_a2am1a6e := jx a2am1a6e in
      let v8_s2apjs6e := v8x s2apjs6e in
      let a08p1a4c_p1_a2ap1a6e := cadd a08p1a4c a2ap1a6e in
      let s08mjs4c_pw_s2amjs6e := cadd s08mjs4c w8_s2amjs6e in
      let a08m1a4c_mj_a2am1a6e := csub a08m1a4c j_a2am1a6e in
      let s08pjs4c_mv_s2apjs6e := csub s08pjs4c v8_s2apjs6e in
      let a08p1a4c_m1_a2ap1a6e := csub a08p1a4c a2ap1a6e in
      let s08mjs4c_mw_s2amjs6e := csub s08mjs4c w8_s2amjs6e in
      let a08m1a4c_pj_a2am1a6e := cadd a08m1a4c j_a2am1a6e in
      let s08pjs4c_pv_s2apjs6e := cadd s08pjs4c v8_s2apjs6e in
      let w8_s3bmjs7f := w8x s3bmjs7f in
      let j_a3bm1a7f := jx a3bm1a7f in
      let v8_s3bpjs7f := v8x s3bpjs7f in
      let a19p1a5d_p1_a3bp1a7f := cadd a19p1a5d a3bp1a7f in
      let s19mjs5d_pw_s3bmjs7f := cadd s19mjs5d w8_s3bmjs7f in
      let a19m1a5d_mj_a3bm1a7f := csub a19m1a5d j_a3bm1a7f in
      let s19pjs5d_mv_s3bpjs7f := csub s19pjs5d v8_s3bpjs7f in
      let a19p1a5d_m1_a3bp1a7f := csub a19p1a5d a3bp1a7f in
      let s19mjs5d_mw_s3bmjs7f := csub s19mjs5d w8_s3bmjs7f in
      let a19m1a5d_pj_a3bm1a7f := cadd a19m1a5d j_a3bm1a7f in
      let s19pjs5d_pv_s3bpjs7f := cadd s19pjs5d v8_s3bpjs7f in
      let h1_s19mjs5d_pw_s3bmjs7f := h1x s19mjs5d_pw_s3bmjs7f in
      let w8_a19m1a5d_mj_a3bm1a7f := w8x a19m1a5d_mj_a3bm1a7f in
      let h3_s19pjs5d_mv_s3bpjs7f := h3x s19pjs5d_mv_s3bpjs7f in
      let j_a19p1a5d_m1_a3bp1a7f := jx a19p1a5d_m1_a3bp1a7f in
      let hd_s19mjs5d_mw_s3bmjs7f := hdx s19mjs5d_mw_s3bmjs7f in
      let v8_a19m1a5d_pj_a3bm1a7f := v8x a19m1a5d_pj_a3bm1a7f in
      let hf_s19pjs5d_pv_s3bpjs7f := hfx s19pjs5d_pv_s3bpjs7f in
            [cadd a08p1a4c_p1_a2ap1a6e a19p1a5d_p1_a3bp1a7f; cadd s08pjs4c_pv_s2apjs6e hf_s19pjs5d_pv_s3bpjs7f; cadd
        a08m1a4c_pj_a2am1a6e v8_a19m1a5d_pj_a3bm1a7f; cadd s08mjs4c_mw_s2amjs6e hd_s19mjs5d_mw_s3bmjs7f; cadd
        a08p1a4c_m1_a2ap1a6e j_a19p1a5d_m1_a3bp1a7f; csub s08pjs4c_mv_s2apjs6e h3_s19pjs5d_mv_s3bpjs7f; csub
        a08m1a4c_mj_a2am1a6e w8_a19m1a5d_mj_a3bm1a7f; csub s08mjs4c_pw_s2amjs6e h1_s19mjs5d_pw_s3bmjs7f; csub
        a08p1a4c_p1_a2ap1a6e a19p1a5d_p1_a3bp1a7f; csub s08pjs4c_pv_s2apjs6e hf_s19pjs5d_pv_s3bpjs7f; csub
        a08m1a4c_pj_a2am1a6e v8_a19m1a5d_pj_a3bm1a7f; csub s08mjs4c_mw_s2amjs6e hd_s19mjs5d_mw_s3bmjs7f; csub
        a08p1a4c_m1_a2ap1a6e j_a19p1a5d_m1_a3bp1a7f; cadd s08pjs4c_mv_s2apjs6e h3_s19pjs5d_mv_s3bpjs7f; cadd
        a08m1a4c_mj_a2am1a6e w8_a19m1a5d_mj_a3bm1a7f; cadd s08mjs4c_pw_s2amjs6e h1_s19mjs5d_pw_s3bmjs7f]
  | _ => []
  end.
(** dit16_invend16 : the addresses of one lane *)
Definition dit16_invend16_lane (mode : smode) (s : nat) (eo : bool) (x y : ptr) (q : nat) : lane C :=
  let N := 16 * s in
  let z := if eo then y else x in
  let xq := x +! q in
  let zq := z +! q in
    Lane [zq +! (s * 0); zq +! (s * 1); zq +! (s * 2); zq +! (s * 3); zq +! (s * 4); zq +! (s * 5); zq +! (s * 6); zq
    +! (s * 7); zq +! (s * 8); zq +! (s * 9); zq +! (s * 10); zq +! (s * 11); zq +! (s * 12); zq +! (s * 13); zq +! (s
    * 14); zq +! (s * 15)]
              [xq +! (s * 0); xq +! (s * 1); xq +! (s * 2); xq +! (s * 3); xq +! (s * 4); xq +! (s * 5); xq +! (s *
         6); xq +! (s * 7); xq +! (s * 8); xq +! (s * 9); xq +! (s * 10); xq +! (s * 11); xq +! (s * 12); xq +! (s *
         13); xq +! (s * 14); xq +! (s * 15)]
       (dit16_invend16_fn N mode).
Definition dit16_invend16 (mode : smode) (s : nat) (eo : bool) (x y : ptr) : prog C unit :=
  for_step s 2 (fun q => vblock 2 (fun l => dit16_invend16_lane mode s eo x y (q + l))).

(** dit16_invend16_1 : src/otfft_avxdit16.h:1202-1300, the arithmetic of one lane *)
Definition dit16_invend16_1_fn (mode : smode) (v : list C) : list C :=
  match v with
    | [z0_in; z1_in; z2_in; z3_in; z4_in; z5_in; z6_in; z7_in; z8_in; z9_in; za_in; zb_in; zc_in; zd_in; ze_in; zf_in]
    =>
      let z0 := scalepz 16 mode z0_in in
      let z1 := scalepz 16 mode z1_in in
      let z2 := scalepz 16 mode z2_in in
      let z3 := scalepz 16 mode z3_in in
      let z4 := scalepz 16 mode z4_in in
      let z5 := scalepz 16 mode z5_in in
      let z6 := scalepz 16 mode z6_in in
      let z7 := scalepz 16 mode z7_in in
      let z8 := scalepz 16 mode z8_in in
      let z9 := scalepz 16 mode z9_in in
      let za := scalepz 16 mode za_in in
      let zb := scalepz 16 mode zb_in in
      let zc := scalepz 16 mode zc_in in
      let zd := scalepz 16 mode zd_in in
      let ze := scalepz 16 mode ze_in in
      let zf := scalepz 16 mode zf_in in
      let a08 := cadd z0 z8 in
      let s08 := csub z0 z8 in
      let a4c := cadd z4 zc in
      let s4c := csub z4 zc in
      let a2a := cadd z2 za in
      let s2a := csub z2 za in
      let a6e := cadd z6 ze in
      let s6e := csub z6 ze in
      let a19 := cadd z1 z9 in
      let s19 := csub z1 z9 in
      let a5d := cadd z5 zd in
      let s5d := csub z5 zd in
      let a3b := cadd z3 zb in
      let s3b := csub z3 zb in
      let a7f := cadd z7 zf in
      let s7f := csub z7 zf in
      let js4c := jx s4c in
      let js6e := jx s6e in
      let js5d := jx s5d in
      let js7f := jx s7f in
      let a08p1a4c := cadd a08 a4c in
      let s08mjs4c := csub s08 js4c in
      let a08m1a4c := csub a08 a4c in
      let s08pjs4c := cadd s08 js4c in
      let a2ap1a6e := cadd a2a a6e in
      let s2amjs6e := csub s2a js6e in
      let a2am1a6e := csub a2a a6e in
      let s2apjs6e := cadd s2a js6e in
      let a19p1a5d := cadd a19 a5d in
      let s19mjs5d := csub s19 js5d in
      let a19m1a5d := csub a19 a5d in
      let s19pjs5d := cadd s19 js5d in
      let a3bp1a7f := cadd a3b a7f in
      let s3bmjs7f := csub s3b js7f in
      let a3bm1a7f := csub a3b a7f in
      let s3bpjs7f := cadd s3b js7f in
      let w8_s2amjs6e := w8x s2amjs6e in
      let j_a2am1a6e := jx a2am1a6e in
      let v8_s2apjs6e := v8x s2apjs6e in
      let a08p1a4c_p1_a2ap1a6e := cadd a08p1a4c a2ap1a6e in
      let s08mjs4c_pw_s2amjs6e := cadd s08mjs4c w8_s2amjs6e in
      let a08m1a4c_mj_a2am1a6e := csub a08m1a4c j_a2am1a6e in
      let s08pjs4c_mv_s2apjs6e := csub s08pjs4c v8_s2apjs6e in
      let a08p1a4c_m1_a2ap1a6e := csub a08p1a4c a2ap1a6e in
      let s08mjs4c_mw_s2amjs6e := csub s08mjs4c w8_s2amjs6e in
      let a08m1a4c_pj_a2am1a6e := cadd a08m1a4c j_a2am1a6e in
      let s08pjs4c_pv_s2apjs6e := cadd s08pjs4c v8_s2apjs6e in
      let w8_s3bmjs7f := w8x s3bmjs7f in
      let j_a3bm1a7f := jx a3bm1a7f in
      let v8_s3bpjs7f := v8x s3bpjs7f in
      let a19p1a5d_p1_a3bp1a7f := cadd a19p1a5d a3bp1a7f in
      let s19mjs5d_pw_s3bmjs7f := cadd s19mjs5d w8_s3bmjs7f in
      let a19m1a5d_mj_a3bm1a7f := csub a19m1a5d j_a3bm1a7f in
      let s19pjs5d_mv_s3bpjs7f := csub s19pjs5d v8_s3bpjs7f in
      let a19p1a5d_m1_a3bp1a7f := csub a19p1a5d a3bp1a7f in
      let s19mjs5d_mw_s3bmjs7f := csub s19mjs5d w8_s3bmjs7f in
      let a19m1a5d_pj_a3bm1a7f := cadd a19m1a5d j_a3bm1a7f in
      let s19pjs5d_pv_s3bpjs7f := cadd s19pjs5d v8_s3bpjs7f in
      let h1_s19mjs5d_pw_s3bmjs7f := h1x s19mjs5d_pw_s3bmjs7f in
      let w8_a19m1a5d_mj_a3bm1a7f := w8x a19m1a5d_mj_a3bm1a7f in
      let h3_s19pjs5d_mv_s3bpjs7f := h3x s19pjs5d_mv_s3bpjs7f in
      let j_a19p1a5d_m1_a3bp1a7f := jx a19p1a5d_m1_a3bp1a7f in
      let hd_s19mjs5d_mw_s3bmjs7f := hdx s19mjs5d_mw_s3bmjs7f in
      let v8_a19m1a5d_pj_a3bm1a7f := v8x a19m1a5d_pj_a3bm1a7f in
      let hf_s19pjs5d_pv_s3bpjs7f := hfx s19pjs5d_pv_s3bpjs7f in
            [cadd a08p1a4c_p1_a2ap1a6e a19p1a5d_p1_a3bp1a7f; cadd s08pjs4c_pv_s2apjs6e hf_s19pjs5d_pv_s3bpjs7f; cadd
        a08m1a4c_pj_a2am1a6e v8_a19m1a5d_pj_a3bm1a7f; cadd s08mjs4c_mw_s2amjs6e hd_s19mjs5d_mw_s3bmjs7f; cadd
        a08p1a4c_m1_a2ap1a6e j_a19p1a5d_m1_a3bp1a7f; csub s08pjs4c_mv_s2apjs6e h3_s19pjs5d_mv_s3bpjs7f; csub
        a08m1a4c_mj_a2am1a6e w8_a19m1a5d_mj_a3bm1a7f; csub s08mjs4c_pw_s2amjs6e h1_s19mjs5d_pw_s3bmjs7f; csub
        a08p1a4c_p1_a2ap1a6e a19p1a5d_p1_a3bp1a7f; csub s08pjs4c_pv_s2apjs6e hf_s19pjs5d_pv_s3bpjs7f; csub
        a08m1a4c_pj_a2am1a6e v8_a19m1a5d_pj_a3bm1a7f; csub s08mjs4c_mw_s2amjs6e hd_s19mjs5d_mw_s3bmjs7f; csub
        a08p1a4c_m1_a2ap1a6e j_a19p1a5d_m1_a3bp1a7f; cadd s08pjs4c_mv_s2apjs6e h3_s19pjs5d_mv_s3bpjs7f; cadd
        a08m1a4c_mj_a2am1a6e w8_a19m1a5d_mj_a3bm1a7f; cadd s08mjs4c_pw_s2amjs6e h1_s19mjs5d_pw_s3bmjs7f]
  | _ => []
  end.
(** dit16_invend16_1 : the addresses of one lane *)
Definition dit16_invend16_1_lane (mode : smode) (eo : bool) (x y : ptr) : lane C :=
  let z := if eo then y else x in
    Lane [z +! 0; z +! 1; z +! 2; z +! 3; z +! 4; z +! 5; z +! 6; z +! 7; z +! 8; z +! 9; z +! 10; z +! 11; z +! 12; z
    +! 13; z +! 14; z +! 15]
              [x +! 0; x +! 1; x +! 2; x +! 3; x +! 4; x +! 5; x +! 6; x +! 7; x +! 8; x +! 9; x +! 10; x +! 11; x +!
         12; x +! 13; x +! 14; x +! 15]
       (dit16_invend16_1_fn mode).
Definition dit16_invend16_1 (mode : smode) (eo : bool) (x y : ptr) : prog C unit :=
  lblock (dit16_invend16_1_lane mode eo x y).

(** dit16o_fwdcore : src/otfft_avxdit16omp.h:23-198, the arithmetic of one lane *)
Definition dit16o_fwdcore_fn (v : list C) : list C :=
  match v with
    | [w1p; y0; y1_in; y2_in; y3_in; y4_in; y5_in; y6_in; y7_in; y8_in; y9_in; ya_in; yb_in; yc_in; yd_in; ye_in;
    yf_in] =>
      let w2p := cmul w1p w1p in
      let w3p := cmul w1p w2p in
      let w4p := cmul w2p w2p in
      let w5p := cmul w2p w3p in
      let w6p := cmul w3p w3p in
      let w7p := cmul w3p w4p in
      let w8p := cmul w4p w4p in
      let w9p := cmul w4p w5p in
      let wap := cmul w5p w5p in
      let wbp := cmul w5p w6p in
      let wcp := cmul w6p w6p in
      let wdp := cmul w6p w7p in
      let wep := cmul w7p w7p in
      let wfp := cmul w7p w8p in
      let y1 := cmul w1p y1_in in
      let y2 := cmul w2p y2_in in
      let y3 := cmul w3p y3_in in
      let y4 := cmul w4p y4_in in
      let y5 := cmul w5p y5_in in
      let y6 := cmul w6p y6_in in
      let y7 := cmul w7p y7_in in
      let y8 := cmul w8p y8_in in
      let y9 := cmul w9p y9_in in
      let ya := cmul wap ya_in in
      let yb := cmul wbp yb_in in
      let yc := cmul wcp yc_in in
      let yd := cmul wdp yd_in in
      let ye := cmul wep ye_in in
      let yf := cmul wfp yf_in in
      let a08 := cadd y0 y8 in
      let s08 := csub y0 y8 in
      let a4c := cadd y4 yc in
      let s4c := csub y4 yc in
      let a2a := cadd y2 ya in
      let s2a := csub y2 ya in
      let a6e := cadd y6 ye in
      let s6e := csub y6 ye in
      let a19 := cadd y1 y9 in
      let s19 := csub y1 y9 in
      let a5d := cadd y5 yd in
      let s5d := csub y5 yd in
      let a3b := cadd y3 yb in
      let s3b := csub y3 yb in
      let a7f := cadd y7 yf in
      let s7f := csub y7 yf in
      let js4c := jx s4c in
      let js6e := jx s6e in
      let js5d := jx s5d in
      let js7f := jx s7f in
      let a08p1a4c := cadd a08 a4c in
      let s08mjs4c := csub s08 js4c in
      let a08m1a4c := csub a08 a4c in
      let s08pjs4c := cadd s08 js4c in
      let a2ap1a6e := cadd a2a a6e in
      let s2amjs6e := csub s2a js6e in
      let a2am1a6e := csub a2a a6e in
      let s2apjs6e := cadd s2a js6e in
      let a19p1a5d := cadd a19 a5d in
      let s19mjs5d := csub s19 js5d in
      let a19m1a5d := csub a19 a5d in
      let s19pjs5d := cadd s19 js5d in
      let a3bp1a7f := cadd a3b a7f in
      let s3bmjs7f := csub s3b js7f in
      let a3bm1a7f := csub a3b a7f in
      let s3bpjs7f := cadd s3b js7f in
      let w8_s2amjs6e := w8x s2amjs6e in
      let j_a2am1a6e := jx a2am1a6e in
      let v8_s2apjs6e := v8x s2apjs6e in
      let a08p1a4c_p1_a2ap1a6e := cadd a08p1a4c a2ap1a6e in
      let s08mjs4c_pw_s2amjs6e := cadd s08mjs4c w8_s2amjs6e in
      let a08m1a4c_mj_a2am1a6e := csub a08m1a4c j_a2am1a6e in
      let s08pjs4c_mv_s2apjs6e := csub s08pjs4c v8_s2apjs6e in
      let a08p1a4c_m1_a2ap1a6e := csub a08p1a4c a2ap1a6e in
      let s08mjs4c_mw_s2amjs6e := csub s08mjs4c w8_s2amjs6e in
      let a08m1a4c_pj_a2am1a6e := cadd a08m1a4c j_a2am1a6e in
      let s08pjs4c_pv_s2apjs6e := cadd s08pjs4c v8_s2apjs6e in
      let w8_s3bmjs7f := w8x s3bmjs7f in
      let j_a3bm1a7f := jx a3bm1a7f in
      let v8_s3bpjs7f := v8x s3bpjs7f in
      let a19p1a5d_p1_a3bp1a7f := cadd a19p1a5d a3bp1a7f in
      let s19mjs5d_pw_s3bmjs7f := cadd s19mjs5d w8_s3bmjs7f in
      let a19m1a5d_mj_a3bm1a7f := csub a19m1a5d j_a3bm1a7f in
      let s19pjs5d_mv_s3bpjs7f := csub s19pjs5d v8_s3bpjs7f in
      let a19p1a5d_m1_a3bp1a7f := csub a19p1a5d a3bp1a7f in
      let s19mjs5d_mw_s3bmjs7f := csub s19mjs5d w8_s3bmjs7f in
      let a19m1a5d_pj_a3bm1a7f := cadd a19m1a5d j_a3bm1a7f in
      let s19pjs5d_pv_s3bpjs7f := cadd s19pjs5d v8_s3bpjs7f in
      let h1_s19mjs5d_pw_s3bmjs7f := h1x s19mjs5d_pw_s3bmjs7f in
      let w8_a19m1a5d_mj_a3bm1a7f := w8x a19m1a5d_mj_a3bm1a7f in
      let h3_s19pjs5d_mv_s3bpjs7f := h3x s19pjs5d_mv_s3bpjs7f in
      let j_a19p1a5d_m1_a3bp1a7f := jx a19p1a5d_m1_a3bp1a7f in
      let hd_s19mjs5d_mw_s3bmjs7f := hdx s19mjs5d_mw_s3bmjs7f in
      let v8_a19m1a5d_pj_a3bm1a7f := v8x a19m1a5d_pj_a3bm1a7f in
      let hf_s19pjs5d_pv_s3bpjs7f := hfx s19pjs5d_pv_s3bpjs7f in
            [cadd a08p1a4c_p1_a2ap1a6e a19p1a5d_p1_a3bp1a7f; cadd s08mjs4c_pw_s2amjs6e h1_s19mjs5d_pw_s3bmjs7f; cadd
        a08m1a4c_mj_a2am1a6e w8_a19m1a5d_mj_a3bm1a7f; cadd s08pjs4c_mv_s2apjs6e h3_s19pjs5d_mv_s3bpjs7f; csub
        a08p1a4c_m1_a2ap1a6e j_a19p1a5d_m1_a3bp1a7f; csub s08mjs4c_mw_s2amjs6e hd_s19mjs5d_mw_s3bmjs7f; csub
        a08m1a4c_pj_a2am1a6e v8_a19m1a5d_pj_a3bm1a7f; csub s08pjs4c_pv_s2apjs6e hf_s19pjs5d_pv_s3bpjs7f; csub
        a08p1a4c_p1_a2ap1a6e a19p1a5d_p1_a3bp1a7f; csub s08mjs4c_pw_s2amjs6e h1_s19mjs5d_pw_s3bmjs7f; csub
        a08m1a4c_mj_a2am1a6e w8_a19m1a5d_mj_a3bm1a7f; csub s08pjs4c_mv_s2apjs6e h3_s19pjs5d_mv_s3bpjs7f; cadd
        a08p1a4c_m1_a2ap1a6e j_a19p1a5d_m1_a3bp1a7f; cadd s08mjs4c_mw_s2amjs6e hd_s19mjs5d_mw_s3bmjs7f; cadd
        a08m1a4c_pj_a2am1a6e v8_a19m1a5d_pj_a3bm1a7f; cadd s08pjs4c_pv_s2apjs6e hf_s19pjs5d_pv_s3bpjs7f]
  | _ => []
  end.
(** dit16o_fwdcore : the addresses of one lane *)
Definition dit16o_fwdcore_lane (n s : nat) (x y W : ptr) (p q : nat) : lane C :=
  let N := n * s in
  let N0 := 0 in
  let N1 := N / 16 in
  let N2 := N1 * 2 in
  let N3 := N1 * 3 in
  let N4 := N1 * 4 in
  let N5 := N1 * 5 in
  let N6 := N1 * 6 in
  let N7 := N1 * 7 in
  let N8 := N1 * 8 in
  let N9 := N1 * 9 in
  let Na := N1 * 10 in
  let Nb := N1 * 11 in
  let Nc := N1 * 12 in
  let Nd := N1 * 13 in
  let Ne := N1 * 14 in
  let Nf := N1 * 15 in
  let sp := s * p in
  let s16p := 16 * sp in
  let xq_sp := x +! (q + sp) in
  let yq_s16p := y +! (q + s16p) in
    Lane [W +! sp; yq_s16p +! (s * 0); yq_s16p +! (s * 1); yq_s16p +! (s * 2); yq_s16p +! (s * 3); yq_s16p +! (s * 4);
    yq_s16p +! (s * 5); yq_s16p +! (s * 6); yq_s16p +! (s * 7); yq_s16p +! (s * 8); yq_s16p +! (s * 9); yq_s16p +! (s
    * 10); yq_s16p +! (s * 11); yq_s16p +! (s * 12); yq_s16p +! (s * 13); yq_s16p +! (s * 14); yq_s16p +! (s * 15)]
              [xq_sp +! N0; xq_sp +! N1; xq_sp +! N2; xq_sp +! N3; xq_sp +! N4; xq_sp +! N5; xq_sp +! N6; xq_sp +! N7;
         xq_sp +! N8; xq_sp +! N9; xq_sp +! Na; xq_sp +! Nb; xq_sp +! Nc; xq_sp +! Nd; xq_sp +! Ne; xq_sp +! Nf]
       (dit16o_fwdcore_fn).
Definition dit16o_fwdcore (n s : nat) (x y W : ptr) : list (phase (V:=C)) :=
  let N := n * s in
  let N1 := N / 16 in
  let Ni := N1 / 4 in
  let h := s / 4 in
  [(Ni, fun i => vblock 4 (fun l => dit16o_fwdcore_lane n s x y W (i / h) ((i mod h) * 4 + l)))].

(** dit16o_fwdcore1 : src/otfft_avxdit16omp.h:200-418, the arithmetic of one lane *)
Definition dit16o_fwdcore1_fn (v : list C) : list C :=
  match v with
    | [w1p; y0; y1_in; y2_in; y3_in; y4_in; y5_in; y6_in; y7_in; y8_in; y9_in; ya_in; yb_in; yc_in; yd_in; ye_in;
    yf_in] =>
      let w2p := cmul w1p w1p in
      let w3p := cmul w1p w2p in
      let w4p := cmul w2p w2p in
      let w5p := cmul w2p w3p in
      let w6p := cmul w3p w3p in
      let w7p := cmul w3p w4p in
      let w8p := cmul w4p w4p in
      let w9p := cmul w4p w5p in
      let wap := cmul w5p w5p in
      let wbp := cmul w5p w6p in
      let wcp := cmul w6p w6p in
      let wdp := cmul w6p w7p in
      let wep := cmul w7p w7p in
      let wfp := cmul w7p w8p in
      let y1 := cmul w1p y1_in in
      let y2 := cmul w2p y2_in in
      let y3 := cmul w3p y3_in in
      let y4 := cmul w4p y4_in in
      let y5 := cmul w5p y5_in in
      let y6 := cmul w6p y6_in in
      let y7 := cmul w7p y7_in in
      let y8 := cmul w8p y8_in in
      let y9 := cmul w9p y9_in in
      let ya := cmul wap ya_in in
      let yb := cmul wbp yb_in in
      let yc := cmul wcp yc_in in
      let yd := cmul wdp yd_in in
      let ye := cmul wep ye_in in
      let yf := cmul wfp yf_in in
      let a08 := cadd y0 y8 in
      let s08 := csub y0 y8 in
      let a4c := cadd y4 yc in
      let s4c := csub y4 yc in
      let a2a := cadd y2 ya in
      let s2a := csub y2 ya in
      let a6e := cadd y6 ye in
      let s6e := csub y6 ye in
      let a19 := cadd y1 y9 in
      let s19 := csub y1 y9 in
      let a5d := cadd y5 yd in
      let s5d := csub y5 yd in
      let a3b := cadd y3 yb in
      let s3b := csub y3 yb in
      let a7f := cadd y7 yf in
      let s7f := csub y7 yf in
      let js4c := jx s4c in
      let js6e := jx s6e in
      let js5d := jx s5d in
      let js7f := jx s7f in
      let a08p1a4c := cadd a08 a4c in
      let s08mjs4c := csub s08 js4c in
      let a08m1a4c := csub a08 a4c in
      let s08pjs4c := cadd s08 js4c in
      let a2ap1a6e := cadd a2a a6e in
      let s2amjs6e := csub s2a js6e in
      let a2am1a6e := csub a2a a6e in
      let s2apjs6e := cadd s2a js6e in
      let a19p1a5d := cadd a19 a5d in
      let s19mjs5d := csub s19 js5d in
      let a19m1a5d := csub a19 a5d in
      let s19pjs5d := cadd s19 js5d in
      let a3bp1a7f := cadd a3b a7f in
      let s3bmjs7f := csub s3b js7f in
      let a3bm1a7f := csub a3b a7f in
      let s3bpjs7f := cadd s3b js7f in
      let w8_s2amjs6e := w8x s2amjs6e in
      let j_a2am1a6e := jx a2am1a6e in
      let v8_s2apjs6e := v8x s2apjs6e in
      let a08p1a4c_p1_a2ap1a6e := cadd a08p1a4c a2ap1a6e in
      let s08mjs4c_pw_s2amjs6e := cadd s08mjs4c w8_s2amjs6e in
      let a08m1a4c_mj_a2am1a6e := csub a08m1a4c j_a2am1a6e in
      let s08pjs4c_mv_s2apjs6e := csub s08pjs4c v8_s2apjs6e in
      let a08p1a4c_m1_a2ap1a6e := csub a08p1a4c a2ap1a6e in
      let s08mjs4c_mw_s2amjs6e := csub s08mjs4c w8_s2amjs6e in
      let a08m1a4c_pj_a2am1a6e := cadd a08m1a4c j_a2am1a6e in
      let s08pjs4c_pv_s2apjs6e := cadd s08pjs4c v8_s2apjs6e in
      let w8_s3bmjs7f := w8x s3bmjs7f in
      let j_a3bm1a7f := jx a3bm1a7f in
      let v8_s3bpjs7f := v8x s3bpjs7f in
      let a19p1a5d_p1_a3bp1a7f := cadd a19p1a5d a3bp1a7f in
      let s19mjs5d_pw_s3bmjs7f := cadd s19mjs5d w8_s3bmjs7f in
      let a19m1a5d_mj_a3bm1a7f := csub a19m1a5d j_a3bm1a7f in
      let s19pjs5d_mv_s3bpjs7f := csub s19pjs5d v8_s3bpjs7f in
      let a19p1a5d_m1_a3bp1a7f := csub a19p1a5d a3bp1a7f in
      let s19mjs5d_mw_s3bmjs7f := csub s19mjs5d w8_s3bmjs7f in
      let a19m1a5d_pj_a3bm1a7f := cadd a19m1a5d j_a3bm1a7f in
      let s19pjs5d_pv_s3bpjs7f := cadd s19pjs5d v8_s3bpjs7f in
      let h1_s19mjs5d_pw_s3bmjs7f := h1x s19mjs5d_pw_s3bmjs7f in
      let w8_a19m1a5d_mj_a3bm1a7f := w8x a19m1a5d_mj_a3bm1a7f in
      let h3_s19pjs5d_mv_s3bpjs7f := h3x s19pjs5d_mv_s3bpjs7f in
      let j_a19p1a5d_m1_a3bp1a7f := jx a19p1a5d_m1_a3bp1a7f in
      let hd_s19mjs5d_mw_s3bmjs7f := hdx s19mjs5d_mw_s3bmjs7f in
      let v8_a19m1a5d_pj_a3bm1a7f := v8x a19m1a5d_pj_a3bm1a7f in
      let hf_s19pjs5d_pv_s3bpjs7f := hfx s19pjs5d_pv_s3bpjs7f in
            [cadd a08p1a4c_p1_a2ap1a6e a19p1a5d_p1_a3bp1a7f; cadd s08mjs4c_pw_s2amjs6e h1_s19mjs5d_pw_s3bmjs7f; cadd
        a08m1a4c_mj_a2am1a6e w8_a19m1a5d_mj_a3bm1a7f; cadd s08pjs4c_mv_s2apjs6e h3_s19pjs5d_mv_s3bpjs7f; csub
        a08p1a4c_m1_a2ap1a6e j_a19p1a5d_m1_a3bp1a7f; csub s08mjs4c_mw_s2amjs6e hd_s19mjs5d_mw_s3bmjs7f; csub
        a08m1a4c_pj_a2am1a6e v8_a19m1a5d_pj_a3bm1a7f; csub s08pjs4c_pv_s2apjs6e hf_s19pjs5d_pv_s3bpjs7f; csub
        a08p1a4c_p1_a2ap1a6e a19p1a5d_p1_a3bp1a7f; csub s08mjs4c_pw_s2amjs6e h1_s19mjs5d_pw_s3bmjs7f; csub
        a08m1a4c_mj_a2am1a6e w8_a19m1a5d_mj_a3bm1a7f; csub s08pjs4c_mv_s2apjs6e h3_s19pjs5d_mv_s3bpjs7f; cadd
        a08p1a4c_m1_a2ap1a6e j_a19p1a5d_m1_a3bp1a7f; cadd s08mjs4c_mw_s2amjs6e hd_s19mjs5d_mw_s3bmjs7f; cadd
        a08m1a4c_pj_a2am1a6e v8_a19m1a5d_pj_a3bm1a7f; cadd s08pjs4c_pv_s2apjs6e hf_s19pjs5d_pv_s3bpjs7f]
  | _ => []
  end.
(** dit16o_fwdcore1 : the addresses of one lane *)
Definition dit16o_fwdcore1_lane (N : nat) (x y W : ptr) (p : nat) : lane C :=
  let N0 := 0 in
  let N1 := N / 16 in
  let N2 := N1 * 2 in
  let N3 := N1 * 3 in
  let N4 := N1 * 4 in
  let N5 := N1 * 5 in
  let N6 := N1 * 6 in
  let N7 := N1 * 7 in
  let N8 := N1 * 8 in
  let N9 := N1 * 9 in
  let Na := N1 * 10 in
  let Nb := N1 * 11 in
  let Nc := N1 * 12 in
  let Nd := N1 * 13 in
  let Ne := N1 * 14 in
  let Nf := N1 * 15 in
  let x_p := x +! p in
  let y_16p := y +! (16 * p) in
    Lane [W +! p; y_16p +! 0; y_16p +! (0 + 1); y_16p +! 2; y_16p +! (2 + 1); y_16p +! 4; y_16p +! (4 + 1); y_16p +!
    6; y_16p +! (6 + 1); y_16p +! 8; y_16p +! (8 + 1); y_16p +! 10; y_16p +! (10 + 1); y_16p +! 12; y_16p +! (12 + 1);
    y_16p +! 14; y_16p +! (14 + 1)]
              [x_p +! N0; x_p +! N1; x_p +! N2; x_p +! N3; x_p +! N4; x_p +! N5; x_p +! N6; x_p +! N7; x_p +! N8; x_p
         +! N9; x_p +! Na; x_p +! Nb; x_p +! Nc; x_p +! Nd; x_p +! Ne; x_p +! Nf]
       (dit16o_fwdcore1_fn).
Definition dit16o_fwdcore1 (N : nat) (x y W : ptr) : list (phase (V:=C)) :=
  let N1 := N / 16 in
  [par_step N1 2 (fun p => vblock 2 (fun l => dit16o_fwdcore1_lane N x y W (p + l)))].

(** dit16o_fwdend16 : src/otfft_avxdit16omp.h:426-531, the arithmetic of one lane *)
Definition dit16o_fwdend16_fn (N : nat) (mode : smode) (v : list C) : list C :=
  match v with
    | [z0_in; z1_in; z2_in; z3_in; z4_in; z5_in; z6_in; z7_in; z8_in; z9_in; za_in; zb_in; zc_in; zd_in; ze_in; zf_in]
    =>
      let z0 := scalepz N mode z0_in in
      let z1 := scalepz N mode z1_in in
      let z2 := scalepz N mode z2_in in
      let z3 := scalepz N mode z3_in in
      let z4 := scalepz N mode z4_in in
      let z5 := scalepz N mode z5_in in
      let z6 := scalepz N mode z6_in in
      let z7 := scalepz N mode z7_in in
      let z8 := scalepz N mode z8_in in
      let z9 := scalepz N mode z9_in in
      let za := scalepz N mode za_in in
      let zb := scalepz N mode zb_in in
      let zc := scalepz N mode zc_in in
      let zd := scalepz N mode zd_in in
      let ze := scalepz N mode ze_in in
      let zf := scalepz N mode zf_in in
      let a08 := cadd z0 z8 in
      let s08 := csub z0 z8 in
      let a4c := cadd z4 zc in
      let s4c := csub z4 zc in
      let a2a := cadd z2 za in
      let s2a := csub z2 za in
      let a6e := cadd z6 ze in
      let s6e := csub z6 ze in
      let a19 := cadd z1 z9 in
      let s19 := csub z1 z9 in
      let a5d := cadd z5 zd in
      let s5d := csub z5 zd in
      let a3b := cadd z3 zb in
      let s3b := csub z3 zb in
      let a7f := cadd z7 zf in
      let s7f := csub z7 zf in
      let js4c := jx s4c in
      let js6e := jx s6e in
      let js5d := jx s5d in
      let js7f := jx s7f in
      let a08p1a4c := cadd a08 a4c in
      let s08mjs4c := csub s08 js4c in
      let a08m1a4c := csub a08 a4c in
      let s08pjs4c := cadd s08 js4c in
      let a2ap1a6e := cadd a2a a6e in
      let s2amjs6e := csub s2a js6e in
      let a2am1a6e := csub a2a a6e in
      let s2apjs6e := cadd s2a js6e in
      let a19p1a5d := cadd a19 a5d in
      let s19mjs5d := csub s19 js5d in
      let a19m1a5d := csub a19 a5d in
      let s19pjs5d := cadd s19 js5d in
      let a3bp1a7f := cadd a3b a7f in
      let s3bmjs7f := csub s3b js7f in
      let a3bm1a7f := csub a3b a7f in
      let s3bpjs7f := cadd s3b js7f in
      let w8_s2amjs6e := w8x s2amjs6e in
      let j_a2am1a6e := jx a2am1a6e in
      let v8_s2apjs6e := v8x s2apjs6e in
      let a08p1a4c_p1_a2ap1a6e := cadd a08p1a4c a2ap1a6e in
      let s08mjs4c_pw_s2amjs6e := cadd s08mjs4c w8_s2amjs6e in
      let a08m1a4c_mj_a2am1a6e := csub a08m1a4c j_a2am1a6e in
      let s08pjs4c_mv_s2apjs6e := csub s08pjs4c v8_s2apjs6e in
      let a08p1a4c_m1_a2ap1a6e := csub a08p1a4c a2ap1a6e in
      let s08mjs4c_mw_s2amjs6e := csub s08mjs4c w8_s2amjs6e in
      let a08m1a4c_pj_a2am1a6e := cadd a08m1a4c j_a2am1a6e in
      let s08pjs4c_pv_s2apjs6e := cadd s08pjs4c v8_s2apjs6e in
      let w8_s3bmjs7f := w8x s3bmjs7f in
      let j_a3bm1a7f := jx a3bm1a7f in
      let v8_s3bpjs7f := v8x s3bpjs7f in
      let a19p1a5d_p1_a3bp1a7f := cadd a19p1a5d a3bp1a7f in
      let s19mjs5d_pw_s3bmjs7f := cadd s19mjs5d w8_s3bmjs7f in
      let a19m1a5d_mj_a3bm1a7f := csub a19m1a5d j_a3bm1a7f in
      let s19pjs5d_mv_s3bpjs7f := csub s19pjs5d v8_s3bpjs7f in
      let a19p1a5d_m1_a3bp1a7f := csub a19p1a5d a3bp1a7f in
      let s19mjs5d_mw_s3bmjs7f := csub s19mjs5d w8_s3bmjs7f in
      let a19m1a5d_pj_a3bm1a7f := cadd a19m1a5d j_a3bm1a7f in
      let s19pjs5d_pv_s3bpjs7f := cadd s19pjs5d v8_s3bpjs7f in
      let h1_s19mjs5d_pw_s3bmjs7f := h1x s19mjs5d_pw_s3bmjs7f in
      let w8_a19m1a5d_mj_a3bm1a7f := w8x a19m1a5d_mj_a3bm1a7f in
      let h3_s19pjs5d_mv_s3bpjs7f := h3x s19pjs5d_mv_s3bpjs7f in
      let j_a19p1a5d_m1_a3bp1a7f := jx a19p1a5d_m1_a3bp1a7f in
      let hd_s19mjs5d_mw_s3bmjs7f := hdx s19mjs5d_mw_s3bmjs7f in
      let v8_a19m1a5d_pj_a3bm1a7f := v8x a19m1a5d_pj_a3bm1a7f in
      let hf_s19pjs5d_pv_s3bpjs7f := hfx s19pjs5d_pv_s3bpjs7f in
            [cadd a08p1a4c_p1_a2ap1a6e a19p1a5d_p1_a3bp1a7f; cadd s08mjs4c_pw_s2amjs6e h1_s19mjs5d_pw_s3bmjs7f; cadd
        a08m1a4c_mj_a2am1a6e w8_a19m1a5d_mj_a3bm1a7f; cadd s08pjs4c_mv_s2apjs6e h3_s19pjs5d_mv_s3bpjs7f; csub
        a08p1a4c_m1_a2ap1a6e j_a19p1a5d_m1_a3bp1a7f; csub s08mjs4c_mw_s2amjs6e hd_s19mjs5d_mw_s3bmjs7f; csub
        a08m1a4c_pj_a2am1a6e v8_a19m1a5d_pj_a3bm1a7f; csub s08pjs4c_pv_s2apjs6e hf_s19pjs5d_pv_s3bpjs7f; csub
        a08p1a4c_p1_a2ap1a6e a19p1a5d_p1_a3bp1a7f; csub s08mjs4c_pw_s2amjs6e h1_s19mjs5d_pw_s3bmjs7f; csub
        a08m1a4c_mj_a2am1a6e w8_a19m1a5d_mj_a3bm1a7f; csub s08pjs4c_mv_s2apjs6e h3_s19pjs5d_mv_s3bpjs7f; cadd
        a08p1a4c_m1_a2ap1a6e j_a19p1a5d_m1_a3bp1a7f; cadd s08mjs4c_mw_s2amjs6e hd_s19mjs5d_mw_s3bmjs7f; cadd
        a08m1a4c_pj_a2am1a6e v8_a19m1a5d_pj_a3bm1a7f; cadd s08pjs4c_pv_s2apjs6e hf_s19pjs5d_pv_s3bpjs7f]
  | _ => []
  end.
(** dit16o_fwdend16 : the addresses of one lane *)
Definition dit16o_fwdend16_lane (mode : smode) (s : nat) (eo : bool) (x y : ptr) (q : nat) : lane C :=
  let N := 16 * s in
  let z := if eo then y else x in
  let xq := x +! q in
  let zq := z +! q in
    Lane [zq +! (s * 0); zq +! (s * 1); zq +! (s * 2); zq +! (s * 3); zq +! (s * 4); zq +! (s * 5); zq +! (s * 6); zq
    +! (s * 7); zq +! (s * 8); zq +! (s * 9); zq +! (s * 10); zq +! (s * 11); zq +! (s * 12); zq +! (s * 13); zq +! (s
    * 14); zq +! (s * 15)]
              [xq +! (s * 0); xq +! (s * 1); xq +! (s * 2); xq +! (s * 3); xq +! (s * 4); xq +! (s * 5); xq +! (s *
         6); xq +! (s * 7); xq +! (s * 8); xq +! (s * 9); xq +! (s * 10); xq +! (s * 11); xq +! (s * 12); xq +! (s *
         13); xq +! (s * 14); xq +! (s * 15)]
       (dit16o_fwdend16_fn N mode).
Definition dit16o_fwdend16 (mode : smode) (s : nat) (eo : bool) (x y : ptr) : list (phase (V:=C)) :=
  [par_step s 2 (fun q => vblock 2 (fun l => dit16o_fwdend16_lane mode s eo x y (q + l)))].

(** dit16o_fwdend16_1 : src/otfft_avxdit16omp.h:533-634, the arithmetic of one lane *)
Definition dit16o_fwdend16_1_fn (mode : smode) (v : list C) : list C :=
  match v with
    | [z0_in; z1_in; z2_in; z3_in; z4_in; z5_in; z6_in; z7_in; z8_in; z9_in; za_in; zb_in; zc_in; zd_in; ze_in; zf_in]
    =>
      let z0 := scalepz 16 mode z0_in in
      let z1 := scalepz 16 mode z1_in in
      let z2 := scalepz 16 mode z2_in in
      let z3 := scalepz 16 mode z3_in in
      let z4 := scalepz 16 mode z4_in in
      let z5 := scalepz 16 mode z5_in in
      let z6 := scalepz 16 mode z6_in in
      let z7 := scalepz 16 mode z7_in in
      let z8 := scalepz 16 mode z8_in in
      let z9 := scalepz 16 mode z9_in in
      let za := scalepz 16 mode za_in in
      let zb := scalepz 16 mode zb_in in
      let zc := scalepz 16 mode zc_in in
      let zd := scalepz 16 mode zd_in in
      let ze := scalepz 16 mode ze_in in
      let zf := scalepz 16 mode zf_in in
      let a08 := cadd z0 z8 in
      let s08 := csub z0 z8 in
      let a4c := cadd z4 zc in
      let s4c := csub z4 zc in
      let a2a := cadd z2 za in
      let s2a := csub z2 za in
      let a6e := cadd z6 ze in
      let s6e := csub z6 ze in
      let a19 := cadd z1 z9 in
      let s19 := csub z1 z9 in
      let a5d := cadd z5 zd in
      let s5d := csub z5 zd in
      let a3b := cadd z3 zb in
      let s3b := csub z3 zb in
      let a7f := cadd z7 zf in
      let s7f := csub z7 zf in
      let js4c := jx s4c in
      let js6e := jx s6e in
      let js5d := jx s5d in
      let js7f := jx s7f in
      let a08p1a4c := cadd a08 a4c in
      let s08mjs4c := csub s08 js4c in
      let a08m1a4c := csub a08 a4c in
      let s08pjs4c := cadd s08 js4c in
      let a2ap1a6e := cadd a2a a6e in
      let s2amjs6e := csub s2a js6e in
      let a2am1a6e := csub a2a a6e in
      let s2apjs6e := cadd s2a js6e in
      let a19p1a5d := cadd a19 a5d in
      let s19mjs5d := csub s19 js5d in
      let a19m1a5d := csub a19 a5d in
      let s19pjs5d := cadd s19 js5d in
      let a3bp1a7f := cadd a3b a7f in
      let s3bmjs7f := csub s3b js7f in
      let a3bm1a7f := csub a3b a7f in
      let s3bpjs7f := cadd s3b js7f in
      let w8_s2amjs6e := w8x s2amjs6e in
      let j_a2am1a6e := jx a2am1a6e in
      let v8_s2apjs6e := v8x s2apjs6e in
      let a08p1a4c_p1_a2ap1a6e := cadd a08p1a4c a2ap1a6e in
      let s08mjs4c_pw_s2amjs6e := cadd s08mjs4c w8_s2amjs6e in
      let a08m1a4c_mj_a2am1a6e := csub a08m1a4c j_a2am1a6e in
      let s08pjs4c_mv_s2apjs6e := csub s08pjs4c v8_s2apjs6e in
      let a08p1a4c_m1_a2ap1a6e := csub a08p1a4c a2ap1a6e in
      let s08mjs4c_mw_s2amjs6e := csub s08mjs4c w8_s2amjs6e in
      let a08m1a4c_pj_a2am1a6e := cadd a08m1a4c j_a2am1a6e in
      let s08pjs4c_pv_s2apjs6e := cadd s08pjs4c v8_s2apjs6e in
      let w8_s3bmjs7f := w8x s3bmjs7f in
      let j_a3bm1a7f := jx a3bm1a7f in
      let v8_s3bpjs7f := v8x s3bpjs7f in
      let a19p1a5d_p1_a3bp1a7f := cadd a19p1a5d a3bp1a7f in
      let s19mjs5d_pw_s3bmjs7f := cadd s19mjs5d w8_s3bmjs7f in
      let a19m1a5d_mj_a3bm1a7f := csub a19m1a5d j_a3bm1a7f in
      let s19pjs5d_mv_s3bpjs7f := csub s19pjs5d v8_s3bpjs7f in
      let a19p1a5d_m1_a3bp1a7f := csub a19p1a5d a3bp1a7f in
      let s19mjs5d_mw_s3bmjs7f := csub s19mjs5d w8_s3bmjs7f in
      let a19m1a5d_pj_a3bm1a7f := cadd a19m1a5d j_a3bm1a7f in
      let s19pjs5d_pv_s3bpjs7f := cadd s19pjs5d v8_s3bpjs7f in
      let h1_s19mjs5d_pw_s3bmjs7f := h1x s19mjs5d_pw_s3bmjs7f in
      let w8_a19m1a5d_mj_a3bm1a7f := w8x a19m1a5d_mj_a3bm1a7f in
      let h3_s19pjs5d_mv_s3bpjs7f := h3x s19pjs5d_mv_s3bpjs7f in
      let j_a19p1a5d_m1_a3bp1a7f := jx a19p1a5d_m1_a3bp1a7f in
      let hd_s19mjs5d_mw_s3bmjs7f := hdx s19mjs5d_mw_s3bmjs7f in
      let v8_a19m1a5d_pj_a3bm1a7f := v8x a19m1a5d_pj_a3bm1a7f in
      let hf_s19pjs5d_pv_s3bpjs7f := hfx s19pjs5d_pv_s3bpjs7f in
            [cadd a08p1a4c_p1_a2ap1a6e a19p1a5d_p1_a3bp1a7f; cadd s08mjs4c_pw_s2amjs6e h1_s19mjs5d_pw_s3bmjs7f; cadd
        a08m1a4c_mj_a2am1a6e w8_a19m1a5d_mj_a3bm1a7f; cadd s08pjs4c_mv_s2apjs6e h3_s19pjs5d_mv_s3bpjs7f; csub
        a08p1a4c_m1_a2ap1a6e j_a19p1a5d_m1_a3bp1a7f; csub s08mjs4c_mw_s2amjs6e hd_s19mjs5d_mw_s3bmjs7f; csub
        a08m1a4c_pj_a2am1a6e v8_a19m1a5d_pj_a3bm1a7f; csub s08pjs4c_pv_s2apjs6e hf_s19pjs5d_pv_s3bpjs7f; csub
        a08p1a4c_p1_a2ap1a6e a19p1a5d_p1_a3bp1a7f; csub s08mjs4c_pw_s2amjs6e h1_s19mjs5d_pw_s3bmjs7f; csub
        a08m1a4c_mj_a2am1a6e w8_a19m1a5d_mj_a3bm1a7f; csub s08pjs4c_mv_s2apjs6e h3_s19pjs5d_mv_s3bpjs7f; cadd
        a08p1a4c_m1_a2ap1a6e j_a19p1a5d_m1_a3bp1a7f; cadd s08mjs4c_mw_s2amjs6e hd_s19mjs5d_mw_s3bmjs7f; cadd
        a08m1a4c_pj_a2am1a6e v8_a19m1a5d_pj_a3bm1a7f; cadd s08pjs4c_pv_s2apjs6e hf_s19pjs5d_pv_s3bpjs7f]
  | _ => []
  end.
(** dit16o_fwdend16_1 : the addresses of one lane *)
Definition dit16o_fwdend16_1_lane (mode : smode) (eo : bool) (x y : ptr) : lane C :=
  let z := if eo then y else x in
    Lane [z +! 0; z +! 1; z +! 2; z +! 3; z +! 4; z +! 5; z +! 6; z +! 7; z +! 8; z +! 9; z +! 10; z +! 11; z +! 12; z
    +! 13; z +! 14; z +! 15]
              [x +! 0; x +! 1; x +! 2; x +! 3; x +! 4; x +! 5; x +! 6; x +! 7; x +! 8; x +! 9; x +! 10; x +! 11; x +!
         12; x +! 13; x +! 14; x +! 15]
       (dit16o_fwdend16_1_fn mode).
Definition dit16o_fwdend16_1 (mode : smode) (eo : bool) (x y : ptr) : list (phase (V:=C)) :=
  [single (lblock (dit16o_fwdend16_1_lane mode eo x y))].

(** dit16o_invcore : src/otfft_avxdit16omp.h:690-865, the arithmetic of one lane *)
Definition dit16o_invcore_fn (v : list C) : list C :=
  match v with
    | [w1p_in; y0; y1_in; y2_in; y3_in; y4_in; y5_in; y6_in; y7_in; y8_in; y9_in; ya_in; yb_in; yc_in; yd_in; ye_in;
    yf_in] =>
      let w1p := cconj w1p_in in
      let w2p := cmul w1p w1p in
      let w3p := cmul w1p w2p in
      let w4p := cmul w2p w2p in
      let w5p := cmul w2p w3p in
      let w6p := cmul w3p w3p in
      let w7p := cmul w3p w4p in
      let w8p := cmul w4p w4p in
      let w9p := cmul w4p w5p in
      let wap := cmul w5p w5p in
      let wbp := cmul w5p w6p in
      let wcp := cmul w6p w6p in
      let wdp := cmul w6p w7p in
      let wep := cmul w7p w7p in
      let wfp := cmul w7p w8p in
      let y1 := cmul w1p y1_in in
      let y2 := cmul w2p y2_in in
      let y3 := cmul w3p y3_in in
      let y4 := cmul w4p y4_in in
      let y5 := cmul w5p y5_in in
      let y6 := cmul w6p y6_in in
      let y7 := cmul w7p y7_in in
      let y8 := cmul w8p y8_in in
      let y9 := cmul w9p y9_in in
      let ya := cmul wap ya_in in
      let yb := cmul wbp yb_in in
      let yc := cmul wcp yc_in in
      let yd := cmul wdp yd_in in
      let ye := cmul wep ye_in in
      let yf := cmul wfp yf_in in
      let a08 := cadd y0 y8 in
      let s08 := csub y0 y8 in
      let a4c := cadd y4 yc in
      let s4c := csub y4 yc in
      let a2a := cadd y2 ya in
      let s2a := csub y2 ya in
      let a6e := cadd y6 ye in
      let s6e := csub y6 ye in
      let a19 := cadd y1 y9 in
      let s19 := csub y1 y9 in
      let a5d := cadd y5 yd in
      let s5d := csub y5 yd in
      let a3b := cadd y3 yb in
      let s3b := csub y3 yb in
      let a7f := cadd y7 yf in
      let s7f := csub y7 yf in
      let js4c := jx s4c in
      let js6e := jx s6e in
      let js5d := jx s5d in
      let js7f := jx s7f in
      let a08p1a4c := cadd a08 a4c in
      let s08mjs4c := csub s08 js4c in
      let a08m1a4c := csub a08 a4c in
      let s08pjs4c := cadd s08 js4c in
      let a2ap1a6e := cadd a2a a6e in
      let s2amjs6e := csub s2a js6e in
      let a2am1a6e := csub a2a a6e in
      let s2apjs6e := cadd s2a js6e in
      let a19p1a5d := cadd a19 a5d in
      let s19mjs5d := csub s19 js5d in
      let a19m1a5d := csub a19 a5d in
      let s19pjs5d := cadd s19 js5d in
      let a3bp1a7f := cadd a3b a7f in
      let s3bmjs7f := csub s3b js7f in
      let a3bm1a7f := csub a3b a7f in
      let s3bpjs7f := cadd s3b js7f in
      let w8_s2amjs6e := w8x s2amjs6e in
      let j_a2am1a6e := jx a2am1a6e in
      let v8_s2apjs6e := v8x s2apjs6e in
      let a08p1a4c_p1_a2ap1a6e := cadd a08p1a4c a2ap1a6e in
      let s08mjs4c_pw_s2amjs6e := cadd s08mjs4c w8_s2amjs6e in
      let a08m1a4c_mj_a2am1a6e := csub a08m1a4c j_a2am1a6e in
      let s08pjs4c_mv_s2apjs6e := csub s08pjs4c v8_s2apjs6e in
      let a08p1a4c_m1_a2ap1a6e := csub a08p1a4c a2ap1a6e in
      let s08mjs4c_mw_s2amjs6e := csub s08mjs4c w8_s2amjs6e in
      let a08m1a4c_pj_a2am1a6e := cadd a08m1a4c j_a2am1a6e in
      let s08pjs4c_pv_s2apjs6e := cadd s08pjs4c v8_s2apjs6e in
      let w8_s3bmjs7f := w8x s3bmjs7f in
      let j_a3bm1a7f := jx a3bm1a7f in
      let v8_s3bpjs7f := v8x s3bpjs7f in
      let a19p1a5d_p1_a3bp1a7f := cadd a19p1a5d a3bp1a7f in
      let s19mjs5d_pw_s3bmjs7f := cadd s19mjs5d w8_s3bmjs7f in
      let a19m1a5d_mj_a3bm1a7f := csub a19m1a5d j_a3bm1a7f in
      let s19pjs5d_mv_s3bpjs7f := csub s19pjs5d v8_s3bpjs7f in
      let a19p1a5d_m1_a3bp1a7f := csub a19p1a5d a3bp1a7f in
      let s19mjs5d_mw_s3bmjs7f := csub s19mjs5d w8_s3bmjs7f in
      let a19m1a5d_pj_a3bm1a7f := cadd a19m1a5d j_a3bm1a7f in
      let s19pjs5d_pv_s3bpjs7f := cadd s19pjs5d v8_s3bpjs7f in
      let hf_s19pjs5d_pv_s3bpjs7f := hfx s19pjs5d_pv_s3bpjs7f in
      let v8_a19m1a5d_pj_a3bm1a7f := v8x a19m1a5d_pj_a3bm1a7f in
      let hd_s19mjs5d_mw_s3bmjs7f := hdx s19mjs5d_mw_s3bmjs7f in
      let j_a19p1a5d_m1_a3bp1a7f := jx a19p1a5d_m1_a3bp1a7f in
      let h3_s19pjs5d_mv_s3bpjs7f := h3x s19pjs5d_mv_s3bpjs7f in
      let w8_a19m1a5d_mj_a3bm1a7f := w8x a19m1a5d_mj_a3bm1a7f in
      let h1_s19mjs5d_pw_s3bmjs7f := h1x s19mjs5d_pw_s3bmjs7f in
            [cadd a08p1a4c_p1_a2ap1a6e a19p1a5d_p1_a3bp1a7f; cadd s08pjs4c_pv_s2apjs6e hf_s19pjs5d_pv_s3bpjs7f; cadd
        a08m1a4c_pj_a2am1a6e v8_a19m1a5d_pj_a3bm1a7f; cadd s08mjs4c_mw_s2amjs6e hd_s19mjs5d_mw_s3bmjs7f; cadd
        a08p1a4c_m1_a2ap1a6e j_a19p1a5d_m1_a3bp1a7f; csub s08pjs4c_mv_s2apjs6e h3_s19pjs5d_mv_s3bpjs7f; csub
        a08m1a4c_mj_a2am1a6e w8_a19m1a5d_mj_a3bm1a7f; csub s08mjs4c_pw_s2amjs6e h1_s19mjs5d_pw_s3bmjs7f; csub
        a08p1a4c_p1_a2ap1a6e a19p1a5d_p1_a3bp1a7f; csub s08pjs4c_pv_s2apjs6e hf_s19pjs5d_pv_s3bpjs7f; csub
        a08m1a4c_pj_a2am1a6e v8_a19m1a5d_pj_a3bm1a7f; csub s08mjs4c_mw_s2amjs6e hd_s19mjs5d_mw_s3bmjs7f; csub
        a08p1a4c_m1_a2ap1a6e j_a19p1a5d_m1_a3bp1a7f; cadd s08pjs4c_mv_s2apjs6e h3_s19pjs5d_mv_s3bpjs7f; cadd
        a08m1a4c_mj_a2am1a6e w8_a19m1a5d_mj_a3bm1a7f; cadd s08mjs4c_pw_s2amjs6e h1_s19mjs5d_pw_s3bmjs7f]
  | _ => []
  end.
(** dit16o_invcore : the addresses of one lane *)
Definition dit16o_invcore_lane (n s : nat) (x y W : ptr) (p q : nat) : lane C :=
  let N := n * s in
  let N0 := 0 in
  let N1 := N / 16 in
  let N2 := N1 * 2 in
  let N3 := N1 * 3 in
  let N4 := N1 * 4 in
  let N5 := N1 * 5 in
  let N6 := N1 * 6 in
  let N7 := N1 * 7 in
  let N8 := N1 * 8 in
  let N9 := N1 * 9 in
  let Na := N1 * 10 in
  let Nb := N1 * 11 in
  let Nc := N1 * 12 in
  let Nd := N1 * 13 in
  let Ne := N1 * 14 in
  let Nf := N1 * 15 in
  let sp := s * p in
  let s16p := 16 * sp in
  let xq_sp := x +! (q + sp) in
  let yq_s16p := y +! (q + s16p) in
    Lane [W +! sp; yq_s16p +! (s * 0); yq_s16p +! (s * 1); yq_s16p +! (s * 2); yq_s16p +! (s * 3); yq_s16p +! (s * 4);
    yq_s16p +! (s * 5); yq_s16p +! (s * 6); yq_s16p +! (s * 7); yq_s16p +! (s * 8); yq_s16p +! (s * 9); yq_s16p +! (s
    * 10); yq_s16p +! (s * 11); yq_s16p +! (s * 12); yq_s16p +! (s * 13); yq_s16p +! (s * 14); yq_s16p +! (s * 15)]
              [xq_sp +! N0; xq_sp +! N1; xq_sp +! N2; xq_sp +! N3; xq_sp +! N4; xq_sp +! N5; xq_sp +! N6; xq_sp +! N7;
         xq_sp +! N8; xq_sp +! N9; xq_sp +! Na; xq_sp +! Nb; xq_sp +! Nc; xq_sp +! Nd; xq_sp +! Ne; xq_sp +! Nf]
       (dit16o_invcore_fn).
Definition dit16o_invcore (n s : nat) (x y W : ptr) : list (phase (V:=C)) :=
  let N := n * s in
  let N1 := N / 16 in
  let Ni := N1 / 4 in
  let h := s / 4 in
  [(Ni, fun i => vblock 4 (fun l => dit16o_invcore_lane n s x y W (i / h) ((i mod h) * 4 + l)))].

(** dit16o_invcore1 : src/otfft_avxdit16omp.h:867-1085, the arithmetic of one lane *)
Definition dit16o_invcore1_fn (v : list C) : list C :=
  match v with
    | [w1p_in; y0; y1_in; y2_in; y3_in; y4_in; y5_in; y6_in; y7_in; y8_in; y9_in; ya_in; yb_in; yc_in; yd_in; ye_in;
    yf_in] =>
      let w1p := cconj w1p_in in
      let w2p := cmul w1p w1p in
      let w3p := cmul w1p w2p in
      let w4p := cmul w2p w2p in
      let w5p := cmul w2p w3p in
      let w6p := cmul w3p w3p in
      let w7p := cmul w3p w4p in
      let w8p := cmul w4p w4p in
      let w9p := cmul w4p w5p in
      let wap := cmul w5p w5p in
      let wbp := cmul w5p w6p in
      let wcp := cmul w6p w6p in
      let wdp := cmul w6p w7p in
      let wep := cmul w7p w7p in
      let wfp := cmul w7p w8p in
      let y1 := cmul w1p y1_in in
      let y2 := cmul w2p y2_in in
      let y3 := cmul w3p y3_in in
      let y4 := cmul w4p y4_in in
      let y5 := cmul w5p y5_in in
      let y6 := cmul w6p y6_in in
      let y7 := cmul w7p y7_in in
      let y8 := cmul w8p y8_in in
      let y9 := cmul w9p y9_in in
      let ya := cmul wap ya_in in
      let yb := cmul wbp yb_in in
      let yc := cmul wcp yc_in in
      let yd := cmul wdp yd_in in
      let ye := cmul wep ye_in in
      let yf := cmul wfp yf_in in
      let a08 := cadd y0 y8 in
      let s08 := csub y0 y8 in
      let a4c := cadd y4 yc in
      let s4c := csub y4 yc in
      let a2a := cadd y2 ya in
      let s2a := csub y2 ya in
      let a6e := cadd y6 ye in
      let s6e := csub y6 ye in
      let a19 := cadd y1 y9 in
      let s19 := csub y1 y9 in
      let a5d := cadd y5 yd in
      let s5d := csub y5 yd in
      let a3b := cadd y3 yb in
      let s3b := csub y3 yb in
      let a7f := cadd y7 yf in
      let s7f := csub y7 yf in
      let js4c := jx s4c in
      let js6e := jx s6e in
      let js5d := jx s5d in
      let js7f := jx s7f in
      let a08p1a4c := cadd a08 a4c in
      let s08mjs4c := csub s08 js4c in
      let a08m1a4c := csub a08 a4c in
      let s08pjs4c := cadd s08 js4c in
      let a2ap1a6e := cadd a2a a6e in
      let s2amjs6e := csub s2a js6e in
      let a2am1a6e := csub a2a a6e in
      let s2apjs6e := cadd s2a js6e in
      let a19p1a5d := cadd a19 a5d in
      let s19mjs5d := csub s19 js5d in
      let a19m1a5d := csub a19 a5d in
      let s19pjs5d := cadd s19 js5d in
      let a3bp1a7f := cadd a3b a7f in
      let s3bmjs7f := csub s3b js7f in
      let a3bm1a7f := csub a3b a7f in
      let s3bpjs7f := cadd s3b js7f in
      let w8_s2amjs6e := w8x s2amjs6e in
      let j_a2am1a6e := jx a2am1a6e in
      let v8_s2apjs6e := v8x s2apjs6e in
      let a08p1a4c_p1_a2ap1a6e := cadd a08p1a4c a2ap1a6e in
      let s08mjs4c_pw_s2amjs6e := cadd s08mjs4c w8_s2amjs6e in
      let a08m1a4c_mj_a2am1a6e := csub a08m1a4c j_a2am1a6e in
      let s08pjs4c_mv_s2apjs6e := csub s08pjs4c v8_s2apjs6e in
      let a08p1a4c_m1_a2ap1a6e := csub a08p1a4c a2ap1a6e in
      let s08mjs4c_mw_s2amjs6e := csub s08mjs4c w8_s2amjs6e in
      let a08m1a4c_pj_a2am1a6e := cadd a08m1a4c j_a2am1a6e in
      let s08pjs4c_pv_s2apjs6e := cadd s08pjs4c v8_s2apjs6e in
      let w8_s3bmjs7f := w8x s3bmjs7f in
      let j_a3bm1a7f := jx a3bm1a7f in
      let v8_s3bpjs7f := v8x s3bpjs7f in
      let a19p1a5d_p1_a3bp1a7f := cadd a19p1a5d a3bp1a7f in
      let s19mjs5d_pw_s3bmjs7f := cadd s19mjs5d w8_s3bmjs7f in
      let a19m1a5d_mj_a3bm1a7f := csub a19m1a5d j_a3bm1a7f in
      let s19pjs5d_mv_s3bpjs7f := csub s19pjs5d v8_s3bpjs7f in
      let a19p1a5d_m1_a3bp1a7f := csub a19p1a5d a3bp1a7f in
      let s19mjs5d_mw_s3bmjs7f := csub s19mjs5d w8_s3bmjs7f in
      let a19m1a5d_pj_a3bm1a7f := cadd a19m1a5d j_a3bm1a7f in
      let s19pjs5d_pv_s3bpjs7f := cadd s19pjs5d v8_s3bpjs7f in
      let hf_s19pjs5d_pv_s3bpjs7f := hfx s19pjs5d_pv_s3bpjs7f in
      let v8_a19m1a5d_pj_a3bm1a7f := v8x a19m1a5d_pj_a3bm1a7f in
      let hd_s19mjs5d_mw_s3bmjs7f := hdx s19mjs5d_mw_s3bmjs7f in
      let j_a19p1a5d_m1_a3bp1a7f := jx a19p1a5d_m1_a3bp1a7f in
      let h3_s19pjs5d_mv_s3bpjs7f := h3x s19pjs5d_mv_s3bpjs7f in
      let w8_a19m1a5d_mj_a3bm1a7f := w8x a19m1a5d_mj_a3bm1a7f in
      let h1_s19mjs5d_pw_s3bmjs7f := h1x s19mjs5d_pw_s3bmjs7f in
            [cadd a08p1a4c_p1_a2ap1a6e a19p1a5d_p1_a3bp1a7f; cadd s08pjs4c_pv_s2apjs6e hf_s19pjs5d_pv_s3bpjs7f; cadd
        a08m1a4c_pj_a2am1a6e v8_a19m1a5d_pj_a3bm1a7f; cadd s08mjs4c_mw_s2amjs6e hd_s19mjs5d_mw_s3bmjs7f; cadd
        a08p1a4c_m1_a2ap1a6e j_a19p1a5d_m1_a3bp1a7f; csub s08pjs4c_mv_s2apjs6e h3_s19pjs5d_mv_s3bpjs7f; csub
        a08m1a4c_mj_a2am1a6e w8_a19m1a5d_mj_a3bm1a7f; csub s08mjs4c_pw_s2amjs6e h1_s19mjs5d_pw_s3bmjs7f; csub
        a08p1a4c_p1_a2ap1a6e a19p1a5d_p1_a3bp1a7f; csub s08pjs4c_pv_s2apjs6e hf_s19pjs5d_pv_s3bpjs7f; csub
        a08m1a4c_pj_a2am1a6e v8_a19m1a5d_pj_a3bm1a7f; csub s08mjs4c_mw_s2amjs6e hd_s19mjs5d_mw_s3bmjs7f; csub
        a08p1a4c_m1_a2ap1a6e j_a19p1a5d_m1_a3bp1a7f; cadd s08pjs4c_mv_s2apjs6e h3_s19pjs5d_mv_s3bpjs7f; cadd
        a08m1a4c_mj_a2am1a6e w8_a19m1a5d_mj_a3bm1a7f; cadd s08mjs4c_pw_s2amjs6e h1_s19mjs5d_pw_s3bmjs7f]
  | _ => []
  end.
(** dit16o_invcore1 : the addresses of one lane *)
Definition dit16o_invcore1_lane (N : nat) (x y W : ptr) (p : nat) : lane C :=
  let N0 := 0 in
  let N1 := N / 16 in
  let N2 := N1 * 2 in
  let N3 := N1 * 3 in
  let N4 := N1 * 4 in
  let N5 := N1 * 5 in
  let N6 := N1 * 6 in
  let N7 := N1 * 7 in
  let N8 := N1 * 8 in
  let N9 := N1 * 9 in
  let Na := N1 * 10 in
  let Nb := N1 * 11 in
  let Nc := N1 * 12 in
  let Nd := N1 * 13 in
  let Ne := N1 * 14 in
  let Nf := N1 * 15 in
  let x_p := x +! p in
  let y_16p := y +! (16 * p) in
    Lane [W +! p; y_16p +! 0; y_16p +! (0 + 1); y_16p +! 2; y_16p +! (2 + 1); y_16p +! 4; y_16p +! (4 + 1); y_16p +!
    6; y_16p +! (6 + 1); y_16p +! 8; y_16p +! (8 + 1); y_16p +! 10; y_16p +! (10 + 1); y_16p +! 12; y_16p +! (12 + 1);
    y_16p +! 14; y_16p +! (14 + 1)]
              [x_p +! N0; x_p +! N1; x_p +! N2; x_p +! N3; x_p +! N4; x_p +! N5; x_p +! N6; x_p +! N7; x_p +! N8; x_p
         +! N9; x_p +! Na; x_p +! Nb; x_p +! Nc; x_p +! Nd; x_p +! Ne; x_p +! Nf]
       (dit16o_invcore1_fn).
Definition dit16o_invcore1 (N : nat) (x y W : ptr) : list (phase (V:=C)) :=
  let N1 := N / 16 in
  [par_step N1 2 (fun p => vblock 2 (fun l => dit16o_invcore1_lane N x y W (p + l)))].

(** dit16o_invend16 : src/otfft_avxdit16omp.h:1093-1198, the arithmetic of one lane *)
Definition dit16o_invend16_fn (N : nat) (mode : smode) (v : list C) : list C :=
  match v with
    | [z0_in; z1_in; z2_in; z3_in; z4_in; z5_in; z6_in; z7_in; z8_in; z9_in; za_in; zb_in; zc_in; zd_in; ze_in; zf_in]
    =>
      let z0 := scalepz N mode z0_in in
      let z1 := scalepz N mode z1_in in
      let z2 := scalepz N mode z2_in in
      let z3 := scalepz N mode z3_in in
      let z4 := scalepz N mode z4_in in
      let z5 := scalepz N mode z5_in in
      let z6 := scalepz N mode z6_in in
      let z7 := scalepz N mode z7_in in
      let z8 := scalepz N mode z8_in in
      let z9 := scalepz N mode z9_in in
      let za := scalepz N mode za_in in
      let zb := scalepz N mode zb_in in
      let zc := scalepz N mode zc_in in
      let zd := scalepz N mode zd_in in
      let ze := scalepz N mode ze_in in
      let zf := scalepz N mode zf_in in
      let a08 := cadd z0 z8 in
      let s08 := csub z0 z8 in
      let a4c := cadd z4 zc in
      let s4c := csub z4 zc in
      let a2a := cadd z2 za in
      let s2a := csub z2 za in
      let a6e := cadd z6 ze in
      let s6e := csub z6 ze in
      let a19 := cadd z1 z9 in
      let s19 := csub z1 z9 in
      let a5d := cadd z5 zd in
      let s5d := csub z5 zd in
      let a3b := cadd z3 zb in
      let s3b := csub z3 zb in
      let a7f := cadd z7 zf in
      let s7f := csub z7 zf in
      let js4c := jx s4c in
      let js6e := jx s6e in
      let js5d := jx s5d in
      let js7f := jx s7f in
      let a08p1a4c := cadd a08 a4c in
      let s08mjs4c := csub s08 js4c in
      let a08m1a4c := csub a08 a4c in
      let s08pjs4c := cadd s08 js4c in
      let a2ap1a6e := cadd a2a a6e in
      let s2amjs6e := csub s2a js6e in
      let a2am1a6e := csub a2a a6e in
      let s2apjs6e := cadd s2a js6e in
      let a19p1a5d := cadd a19 a5d in
      let s19mjs5d := csub s19 js5d in
      let a19m1a5d := csub a19 a5d in
      let s19pjs5d := cadd s19 js5d in
      let a3bp1a7f := cadd a3b a7f in
      let s3bmjs7f := csub s3b js7f in
      let a3bm1a7f := csub a3b a7f in
      let s3bpjs7f := cadd s3b js7f in
      let w8_s2amjs6e := w8x s2amjs6e in
      let j_a2am1a6e := jx a2am1a6e in
      let v8_s2apjs6e := v8x s2apjs6e in
      let a08p1a4c_p1_a2ap1a6e := cadd a08p1a4c a2ap1a6e in
      let s08mjs4c_pw_s2amjs6e := cadd s08mjs4c w8_s2amjs6e in
      let a08m1a4c_mj_a2am1a6e := csub a08m1a4c j_a2am1a6e in
      let s08pjs4c_mv_s2apjs6e := csub s08pjs4c v8_s2apjs6e in
      let a08p1a4c_m1_a2ap1a6e := csub a08p1a4c a2ap1a6e in
      let s08mjs4c_mw_s2amjs6e := csub s08mjs4c w8_s2amjs6e in
      let a08m1a4c_pj_a2am1a6e := cadd a08m1a4c j_a2am1a6e in
      let s08pjs4c_pv_s2apjs6e := cadd s08pjs4c v8_s2apjs6e in
      let w8_s3bmjs7f := w8x s3bmjs7f in
      let j_a3bm1a7f := jx a3bm1a7f in
      let v8_s3bpjs7f := v8x s3bpjs7f in
      let a19p1a5d_p1_a3bp1a7f := cadd a19p1a5d a3bp1a7f in
      let s19mjs5d_pw_s3bmjs7f := cadd s19mjs5d w8_s3bmjs7f in
      let a19m1a5d_mj_a3bm1a7f := csub a19m1a5d j_a3bm1a7f in
      let s19pjs5d_mv_s3bpjs7f := csub s19pjs5d v8_s3bpjs7f in
      let a19p1a5d_m1_a3bp1a7f := csub a19p1a5d a3bp1a7f in
      let s19mjs5d_mw_s3bmjs7f := csub s19mjs5d w8_s3bmjs7f in
      let a19m1a5d_pj_a3bm1a7f := cadd a19m1a5d j_a3bm1a7f in
      let s19pjs5d_pv_s3bpjs7f := cadd s19pjs5d v8_s3bpjs7f in
      let h1_s19mjs5d_pw_s3bmjs7f := h1x s19mjs5d_pw_s3bmjs7f in
      let w8_a19m1a5d_mj_a3bm1a7f := w8x a19m1a5d_mj_a3bm1a7f in
      let h3_s19pjs5d_mv_s3bpjs7f := h3x s19pjs5d_mv_s3bpjs7f in
      let j_a19p1a5d_m1_a3bp1a7f := jx a19p1a5d_m1_a3bp1a7f in
      let hd_s19mjs5d_mw_s3bmjs7f := hdx s19mjs5d_mw_s3bmjs7f in
      let v8_a19m1a5d_pj_a3bm1a7f := v8x a19m1a5d_pj_a3bm1a7f in
      let hf_s19pjs5d_pv_s3bpjs7f := hfx s19pjs5d_pv_s3bpjs7f in
            [cadd a08p1a4c_p1_a2ap1a6e a19p1a5d_p1_a3bp1a7f; cadd s08pjs4c_pv_s2apjs6e hf_s19pjs5d_pv_s3bpjs7f; cadd
        a08m1a4c_pj_a2am1a6e v8_a19m1a5d_pj_a3bm1a7f; cadd s08mjs4c_mw_s2amjs6e hd_s19mjs5d_mw_s3bmjs7f; cadd
        a08p1a4c_m1_a2ap1a6e j_a19p1a5d_m1_a3bp1a7f; csub s08pjs4c_mv_s2apjs6e h3_s19pjs5d_mv_s3bpjs7f; csub
        a08m1a4c_mj_a2am1a6e w8_a19m1a5d_mj_a3bm1a7f; csub s08mjs4c_pw_s2amjs6e h1_s19mjs5d_pw_s3bmjs7f; csub
        a08p1a4c_p1_a2ap1a6e a19p1a5d_p1_a3bp1a7f; csub s08pjs4c_pv_s2apjs6e hf_s19pjs5d_pv_s3bpjs7f; csub
        a08m1a4c_pj_a2am1a6e v8_a19m1a5d_pj_a3bm1a7f; csub s08mjs4c_mw_s2amjs6e hd_s19mjs5d_mw_s3bmjs7f; csub
        a08p1a4c_m1_a2ap1a6e j_a19p1a5d_m1_a3bp1a7f; cadd s08pjs4c_mv_s2apjs6e h3_s19pjs5d_mv_s3bpjs7f; cadd
        a08m1a4c_mj_a2am1a6e w8_a19m1a5d_mj_a3bm1a7f; cadd s08mjs4c_pw_s2amjs6e h1_s19mjs5d_pw_s3bmjs7f]
  | _ => []
  end.
(** dit16o_invend16 : the addresses of one lane *)
Definition dit16o_invend16_lane (mode : smode) (s : nat) (eo : bool) (x y : ptr) (q : nat) : lane C :=
  let N := 16 * s in
  let z := if eo then y else x in
  let xq := x +! q in
  let zq := z +! q in
    Lane [zq +! (s * 0); zq +! (s * 1); zq +! (s * 2); zq +! (s * 3); zq +! (s * 4); zq +! (s * 5); zq +! (s * 6); zq
    +! (s * 7); zq +! (s * 8); zq +! (s * 9); zq +! (s * 10); zq +! (s * 11); zq +! (s * 12); zq +! (s * 13); zq +! (s
    * 14); zq +! (s * 15)]
              [xq +! (s * 0); xq +! (s * 1); xq +! (s * 2); xq +! (s * 3); xq +! (s * 4); xq +! (s * 5); xq +! (s *
         6); xq +! (s * 7); xq +! (s * 8); xq +! (s * 9); xq +! (s * 10); xq +! (s * 11); xq +! (s * 12); xq +! (s *
         13); xq +! (s * 14); xq +! (s * 15)]
       (dit16o_invend16_fn N mode).
Definition dit16o_invend16 (mode : smode) (s : nat) (eo : bool) (x y : ptr) : list (phase (V:=C)) :=
  [par_step s 2 (fun q => vblock 2 (fun l => dit16o_invend16_lane mode s eo x y (q + l)))].

(** dit16o_invend16_1 : src/otfft_avxdit16omp.h:1200-1301, the arithmetic of one lane *)
Definition dit16o_invend16_1_fn (mode : smode) (v : list C) : list C :=
  match v with
    | [z0_in; z1_in; z2_in; z3_in; z4_in; z5_in; z6_in; z7_in; z8_in; z9_in; za_in; zb_in; zc_in; zd_in; ze_in; zf_in]
    =>
      let z0 := scalepz 16 mode z0_in in
      let z1 := scalepz 16 mode z1_in in
      let z2 := scalepz 16 mode z2_in in
      let z3 := scalepz 16 mode z3_in in
      let z4 := scalepz 16 mode z4_in in
      let z5 := scalepz 16 mode z5_in in
      let z6 := scalepz 16 mode z6_in in
      let z7 := scalepz 16 mode z7_in in
      let z8 := scalepz 16 mode z8_in in
      let z9 := scalepz 16 mode z9_in in
      let za := scalepz 16 mode za_in in
      let zb := scalepz 16 mode zb_in in
      let zc := scalepz 16 mode zc_in in
      let zd := scalepz 16 mode zd_in in
      let ze := scalepz 16 mode ze_in in
      let zf := scalepz 16 mode zf_in in
      let a08 := cadd z0 z8 in
      let s08 := csub z0 z8 in
      let a4c := cadd z4 zc in
      let s4c := csub z4 zc in
      let a2a := cadd z2 za in
      let s2a := csub z2 za in
      let a6e := cadd z6 ze in
      let s6e := csub z6 ze in
      let a19 := cadd z1 z9 in
      let s19 := csub z1 z9 in
      let a5d := cadd z5 zd in
      let s5d := csub z5 zd in
      let a3b := cadd z3 zb in
      let s3b := csub z3 zb in
      let a7f := cadd z7 zf in
      let s7f := csub z7 zf in
      let js4c := jx s4c in
      let js6e := jx s6e in
      let js5d := jx s5d in
      let js7f := jx s7f in
      let a08p1a4c := cadd a08 a4c in
      let s08mjs4c := csub s08 js4c in
      let a08m1a4c := csub a08 a4c in
      let s08pjs4c := cadd s08 js4c in
      let a2ap1a6e := cadd a2a a6e in
      let s2amjs6e := csub s2a js6e in
      let a2am1a6e := csub a2a a6e in
      let s2apjs6e := cadd s2a js6e in
      let a19p1a5d := cadd a19 a5d in
      let s19mjs5d := csub s19 js5d in
      let a19m1a5d := csub a19 a5d in
      let s19pjs5d := cadd s19 js5d in
      let a3bp1a7f := cadd a3b a7f in
      let s3bmjs7f := csub s3b js7f in
      let a3bm1a7f := csub a3b a7f in
      let s3bpjs7f := cadd s3b js7f in
      let w8_s2amjs6e := w8x s2amjs6e in
      let j_a2am1a6e := jx a2am1a6e in
      let v8_s2apjs6e := v8x s2apjs6e in
      let a08p1a4c_p1_a2ap1a6e := cadd a08p1a4c a2ap1a6e in
      let s08mjs4c_pw_s2amjs6e := cadd s08mjs4c w8_s2amjs6e in
      let a08m1a4c_mj_a2am1a6e := csub a08m1a4c j_a2am1a6e in
      let s08pjs4c_mv_s2apjs6e := csub s08pjs4c v8_s2apjs6e in
      let a08p1a4c_m1_a2ap1a6e := csub a08p1a4c a2ap1a6e in
      let s08mjs4c_mw_s2amjs6e := csub s08mjs4c w8_s2amjs6e in
      let a08m1a4c_pj_a2am1a6e := cadd a08m1a4c j_a2am1a6e in
      let s08pjs4c_pv_s2apjs6e := cadd s08pjs4c v8_s2apjs6e in
      let w8_s3bmjs7f := w8x s3bmjs7f in
      let j_a3bm1a7f := jx a3bm1a7f in
      let v8_s3bpjs7f := v8x s3bpjs7f in
      let a19p1a5d_p1_a3bp1a7f := cadd a19p1a5d a3bp1a7f in
      let s19mjs5d_pw_s3bmjs7f := cadd s19mjs5d w8_s3bmjs7f in
      let a19m1a5d_mj_a3bm1a7f := csub a19m1a5d j_a3bm1a7f in
      let s19pjs5d_mv_s3bpjs7f := csub s19pjs5d v8_s3bpjs7f in
      let a19p1a5d_m1_a3bp1a7f := csub a19p1a5d a3bp1a7f in
      let s19mjs5d_mw_s3bmjs7f := csub s19mjs5d w8_s3bmjs7f in
      let a19m1a5d_pj_a3bm1a7f := cadd a19m1a5d j_a3bm1a7f in
      let s19pjs5d_pv_s3bpjs7f := cadd s19pjs5d v8_s3bpjs7f in
      let h1_s19mjs5d_pw_s3bmjs7f := h1x s19mjs5d_pw_s3bmjs7f in
      let w8_a19m1a5d_mj_a3bm1a7f := w8x a19m1a5d_mj_a3bm1a7f in
      let h3_s19pjs5d_mv_s3bpjs7f := h3x s19pjs5d_mv_s3bpjs7f in
      let j_a19p1a5d_m1_a3bp1a7f := jx a19p1a5d_m1_a3bp1a7f in
      let hd_s19mjs5d_mw_s3bmjs7f := hdx s19mjs5d_mw_s3bmjs7f in
      let v8_a19m1a5d_pj_a3bm1a7f := v8x a19m1a5d_pj_a3bm1a7f in
      let hf_s19pjs5d_pv_s3bpjs7f := hfx s19pjs5d_pv_s3bpjs7f in
            [cadd a08p1a4c_p1_a2ap1a6e a19p1a5d_p1_a3bp1a7f; cadd s08pjs4c_pv_s2apjs6e hf_s19pjs5d_pv_s3bpjs7f; cadd
        a08m1a4c_pj_a2am1a6e v8_a19m1a5d_pj_a3bm1a7f; cadd s08mjs4c_mw_s2amjs6e hd_s19mjs5d_mw_s3bmjs7f; cadd
        a08p1a4c_m1_a2ap1a6e j_a19p1a5d_m1_a3bp1a7f; csub s08pjs4c_mv_s2apjs6e h3_s19pjs5d_mv_s3bpjs7f; csub
        a08m1a4c_mj_a2am1a6e w8_a19m1a5d_mj_a3bm1a7f; csub s08mjs4c_pw_s2amjs6e h1_s19mjs5d_pw_s3bmjs7f; csub
        a08p1a4c_p1_a2ap1a6e a19p1a5d_p1_a3bp1a7f; csub s08pjs4c_pv_s2apjs6e hf_s19pjs5d_pv_s3bpjs7f; csub
        a08m1a4c_pj_a2am1a6e v8_a19m1a5d_pj_a3bm1a7f; csub s08mjs4c_mw_s2amjs6e hd_s19mjs5d_mw_s3bmjs7f; csub
        a08p1a4c_m1_a2ap1a6e j_a19p1a5d_m1_a3bp1a7f; cadd s08pjs4c_mv_s2apjs6e h3_s19pjs5d_mv_s3bpjs7f; cadd
        a08m1a4c_mj_a2am1a6e w8_a19m1a5d_mj_a3bm1a7f; cadd s08mjs4c_pw_s2amjs6e h1_s19mjs5d_pw_s3bmjs7f]
  | _ => []
  end.
(** dit16o_invend16_1 : the addresses of one lane *)
Definition dit16o_invend16_1_lane (mode : smode) (eo : bool) (x y : ptr) : lane C :=
  let z := if eo then y else x in
    Lane [z +! 0; z +! 1; z +! 2; z +! 3; z +! 4; z +! 5; z +! 6; z +! 7; z +! 8; z +! 9; z +! 10; z +! 11; z +! 12; z
    +! 13; z +! 14; z +! 15]
              [x +! 0; x +! 1; x +! 2; x +! 3; x +! 4; x +! 5; x +! 6; x +! 7; x +! 8; x +! 9; x +! 10; x +! 11; x +!
         12; x +! 13; x +! 14; x +! 15]
       (dit16o_invend16_1_fn mode).
Definition dit16o_invend16_1 (mode : smode) (eo : bool) (x y : ptr) : list (phase (V:=C)) :=
  [single (lblock (dit16o_invend16_1_lane mode eo x y))].

End ModelDit16.
