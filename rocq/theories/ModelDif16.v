(** * Radix-16 decimation-in-frequency kernels, transcribed by tools/kernels.py

    Serial kernels: src/otfft_avxdif16.h; kernels for a thread team (suffix o): src/otfft_avxdif16omp.h.
    Each kernel is [_fn] (what one SIMD lane computes from its loaded values), [_lane] (which addresses
    that lane loads and stores; loads are listed twiddles first and then in address order, and all of
    them precede the stores in the source too; twiddles hoisted out of the q loop are listed with the lane
    that uses them, the table being read-only here) and the loop nest around it.  A pragma omp for is one
    phase of a region; inactive preprocessor branches (if 0, DO_SINGLE_THREAD) are not modelled. *)

From Coq Require Import List Arith.
From Verif Require Import Scalar Mem Omp Lanes Twid.
Import ListNotations.

Section ModelDif16.
Context {Op : Ops}.

(** dif16_fwdcore : src/otfft_avxdif16.h:32-174, the arithmetic of one lane *)
Definition dif16_fwdcore_fn (v : list C) : list C :=
  match v with
    | [w1p; w2p; w3p; w4p; w5p; w6p; w7p; w8p; w9p; wap; wbp; wcp; wdp; wep; wfp; x0; x1; x2; x3; x4; x5; x6; x7; x8;
    x9; xa; xb; xc; xd; xe; xf] =>
      let a08 := cadd x0 x8 in
      let s08 := csub x0 x8 in
      let a4c := cadd x4 xc in
      let s4c := csub x4 xc in
      let a2a := cadd x2 xa in
      let s2a := csub x2 xa in
      let a6e := cadd x6 xe in
      let s6e := csub x6 xe in
      let a19 := cadd x1 x9 in
      let s19 := csub x1 x9 in
      let a5d := cadd x5 xd in
      let s5d := csub x5 xd in
      let a3b := cadd x3 xb in
      let s3b := csub x3 xb in
      let a7f := cadd x7 xf in
      let s7f := csub x7 xf in
      let js4c := jx s4c in
      let js6e := jx s6e in
      let js5d := jx s5d in
      let js7f := jx s7f in
      let a08p1a4c := cadd a08 a4c in
      let s08mjs4c := csub s08 js4c in
      let a08m1a4c := csub a08 a4c in
      let s08pjs4c := cadd s08 js4c in
      let a2ap1a6e := cadd a2a a6e in
      let s2amjs6e := csub s2a js6e in
      let a2am1a6e := csub a2a a6e in
      let s2apjs6e := cadd s2a js6e in
      let a19p1a5d := cadd a19 a5d in
      let s19mjs5d := csub s19 js5d in
      let a19m1a5d := csub a19 a5d in
      let s19pjs5d := cadd s19 js5d in
      let a3bp1a7f := cadd a3b a7f in
      let s3bmjs7f := csub s3b js7f in
      let a3bm1a7f := csub a3b a7f in
      let s3bpjs7f := cadd s3b js7f in
      let w8_s2amjs6e := w8x s2amjs6e in
      let j_a2am1a6e := jx a2am1a6e in
      let v8_s2apjs6e := v8x s2apjs6e in
      let a08p1a4c_p1_a2ap1a6e := cadd a08p1a4c a2ap1a6e in
      let s08mjs4c_pw_s2amjs6e := cadd s08mjs4c w8_s2amjs6e in
      let a08m1a4c_mj_a2am1a6e := csub a08m1a4c j_a2am1a6e in
      let s08pjs4c_mv_s2apjs6e := csub s08pjs4c v8_s2apjs6e in
      let a08p1a4c_m1_a2ap1a6e := csub a08p1a4c a2ap1a6e in
      let s08mjs4c_mw_s2amjs6e := csub s08mjs4c w8_s2amjs6e in
      let a08m1a4c_pj_a2am1a6e := cadd a08m1a4c j_a2am1a6e in
      let s08pjs4c_pv_s2apjs6e := cadd s08pjs4c v8_s2apjs6e in
      let w8_s3bmjs7f := w8x s3bmjs7f in
      let j_a3bm1a7f := jx a3bm1a7f in
      let v8_s3bpjs7f := v8x s3bpjs7f in
      let a19p1a5d_p1_a3bp1a7f := cadd a19p1a5d a3bp1a7f in
      let s19mjs5d_pw_s3bmjs7f := cadd s19mjs5d w8_s3bmjs7f in
      let a19m1a5d_mj_a3bm1a7f := csub a19m1a5d j_a3bm1a7f in
      let s19pjs5d_mv_s3bpjs7f := csub s19pjs5d v8_s3bpjs7f in
      let a19p1a5d_m1_a3bp1a7f := csub a19p1a5d a3bp1a7f in
      let s19mjs5d_mw_s3bmjs7f := csub s19mjs5d w8_s3bmjs7f in
      let a19m1a5d_pj_a3bm1a7f := cadd a19m1a5d j_a3bm1a7f in
      let s19pjs5d_pv_s3bpjs7f := cadd s19pjs5d v8_s3bpjs7f in
      let h1_s19mjs5d_pw_s3bmjs7f := h1x s19mjs5d_pw_s3bmjs7f in
      let w8_a19m1a5d_mj_a3bm1a7f := w8x a19m1a5d_mj_a3bm1a7f in
      let h3_s19pjs5d_mv_s3bpjs7f := h3x s19pjs5d_mv_s3bpjs7f in
      let j_a19p1a5d_m1_a3bp1a7f := jx a19p1a5d_m1_a3bp1a7f in
      let hd_s19mjs5d_mw_s3bmjs7f := hdx s19mjs5d_mw_s3bmjs7f in
      let v8_a19m1a5d_pj_a3bm1a7f := v8x a19m1a5d_pj_a3bm1a7f in
      let hf_s19pjs5d_pv_s3bpjs7f := hfx s19pjs5d_pv_s3bpjs7f in
            [cadd a08p1a4c_p1_a2ap1a6e a19p1a5d_p1_a3bp1a7f; cmul w1p (cadd s08mjs4c_pw_s2amjs6e
        h1_s19mjs5d_pw_s3bmjs7f); cmul w2p (cadd a08m1a4c_mj_a2am1a6e w8_a19m1a5d_mj_a3bm1a7f); cmul w3p (cadd
        s08pjs4c_mv_s2apjs6e h3_s19pjs5d_mv_s3bpjs7f); cmul w4p (csub a08p1a4c_m1_a2ap1a6e j_a19p1a5d_m1_a3bp1a7f);
        cmul w5p (csub s08mjs4c_mw_s2amjs6e hd_s19mjs5d_mw_s3bmjs7f); cmul w6p (csub a08m1a4c_pj_a2am1a6e
        v8_a19m1a5d_pj_a3bm1a7f); cmul w7p (csub s08pjs4c_pv_s2apjs6e hf_s19pjs5d_pv_s3bpjs7f); cmul w8p (csub
        a08p1a4c_p1_a2ap1a6e a19p1a5d_p1_a3bp1a7f); cmul w9p (csub s08mjs4c_pw_s2amjs6e h1_s19mjs5d_pw_s3bmjs7f); cmul
        wap (csub a08m1a4c_mj_a2am1a6e w8_a19m1a5d_mj_a3bm1a7f); cmul wbp (csub s08pjs4c_mv_s2apjs6e
        h3_s19pjs5d_mv_s3bpjs7f); cmul wcp (cadd a08p1a4c_m1_a2ap1a6e j_a19p1a5d_m1_a3bp1a7f); cmul wdp (cadd
        s08mjs4c_mw_s2amjs6e hd_s19mjs5d_mw_s3bmjs7f); cmul wep (cadd a08m1a4c_pj_a2am1a6e v8_a19m1a5d_pj_a3bm1a7f);
        cmul wfp (cadd s08pjs4c_pv_s2apjs6e hf_s19pjs5d_pv_s3bpjs7f)]
  | _ => []
  end.
(** dif16_fwdcore : the addresses of one lane *)
Definition dif16_fwdcore_lane (n s : nat) (x y W : ptr) (p q : nat) : lane C :=
  let N := n * s in
  let N0 := 0 in
  let N1 := N / 16 in
  let N2 := N1 * 2 in
  let N3 := N1 * 3 in
  let N4 := N1 * 4 in
  let N5 := N1 * 5 in
  let N6 := N1 * 6 in
  let N7 := N1 * 7 in
  let N8 := N1 * 8 in
  let N9 := N1 * 9 in
  let Na := N1 * 10 in
  let Nb := N1 * 11 in
  let Nc := N1 * 12 in
  let Nd := N1 * 13 in
  let Ne := N1 * 14 in
  let Nf := N1 * 15 in
  let sp := s * p in
  let s16p := 16 * sp in
  let xq_sp := x +! (q + sp) in
  let yq_s16p := y +! (q + s16p) in
    Lane [twidT 16 N 1 W sp; twidT 16 N 2 W sp; twidT 16 N 3 W sp; twidT 16 N 4 W sp; twidT 16 N 5 W sp; twidT 16 N 6
    W sp; twidT 16 N 7 W sp; twidT 16 N 8 W sp; twidT 16 N 9 W sp; twidT 16 N 10 W sp; twidT 16 N 11 W sp; twidT 16 N
    12 W sp; twidT 16 N 13 W sp; twidT 16 N 14 W sp; twidT 16 N 15 W sp; xq_sp +! N0; xq_sp +! N1; xq_sp +! N2; xq_sp
    +! N3; xq_sp +! N4; xq_sp +! N5; xq_sp +! N6; xq_sp +! N7; xq_sp +! N8; xq_sp +! N9; xq_sp +! Na; xq_sp +! Nb;
    xq_sp +! Nc; xq_sp +! Nd; xq_sp +! Ne; xq_sp +! Nf]
              [yq_s16p +! (s * 0); yq_s16p +! (s * 1); yq_s16p +! (s * 2); yq_s16p +! (s * 3); yq_s16p +! (s * 4);
         yq_s16p +! (s * 5); yq_s16p +! (s * 6); yq_s16p +! (s * 7); yq_s16p +! (s * 8); yq_s16p +! (s * 9); yq_s16p
         +! (s * 10); yq_s16p +! (s * 11); yq_s16p +! (s * 12); yq_s16p +! (s * 13); yq_s16p +! (s * 14); yq_s16p +!
         (s * 15)]
       (dif16_fwdcore_fn).
Definition dif16_fwdcore (n s : nat) (x y W : ptr) : prog C unit :=
  let m := n / 16 in
  for_ m (fun p => for_step s 2 (fun q => vblock 2 (fun l => dif16_fwdcore_lane n s x y W p (q + l)))).

(** dif16_fwdcore1 : src/otfft_avxdif16.h:176-363, the arithmetic of one lane *)
Definition dif16_fwdcore1_fn (v : list C) : list C :=
  match v with
    | [w1p; w2p; w3p; w4p; w5p; w6p; w7p; w8p; w9p; wap; wbp; wcp; wdp; wep; wfp; x0; x1; x2; x3; x4; x5; x6; x7; x8;
    x9; xa; xb; xc; xd; xe; xf] =>
      let a08 := cadd x0 x8 in
      let s08 := csub x0 x8 in
      let a4c := cadd x4 xc in
      let s4c := csub x4 xc in
      let a2a := cadd x2 xa in
      let s2a := csub x2 xa in
      let a6e := cadd x6 xe in
      let s6e := csub x6 xe in
      let a19 := cadd x1 x9 in
      let s19 := csub x1 x9 in
      let a5d := cadd x5 xd in
      let s5d := csub x5 xd in
      let a3b := cadd x3 xb in
      let s3b := csub x3 xb in
      let a7f := cadd x7 xf in
      let s7f := csub x7 xf in
      let js4c := jx s4c in
      let js6e := jx s6e in
      let js5d := jx s5d in
      let js7f := jx s7f in
      let a08p1a4c := cadd a08 a4c in
      let s08mjs4c := csub s08 js4c in
      let a08m1a4c := csub a08 a4c in
      let s08pjs4c := cadd s08 js4c in
      let a2ap1a6e := cadd a2a a6e in
      let s2amjs6e := csub s2a js6e in
      let a2am1a6e := csub a2a a6e in
      let s2apjs6e := cadd s2a js6e in
      let a19p1a5d := cadd a19 a5d in
      let s19mjs5d := csub s19 js5d in
      let a19m1a5d := csub a19 a5d in
      let s19pjs5d := cadd s19 js5d in
      let a3bp1a7f := cadd a3b a7f in
      let s3bmjs7f := csub s3b js7f in
      let a3bm1a7f := csub a3b a7f in
      let s3bpjs7f := cadd s3b js7f in
      let w8_s2amjs6e := w8x s2amjs6e in
      let j_a2am1a6e := jx a2am1a6e in
      let v8_s2apjs6e := v8x s2apjs6e in
      let a08p1a4c_p1_a2ap1a6e := cadd a08p1a4c a2ap1a6e in
      let s08mjs4c_pw_s2amjs6e := cadd s08mjs4c w8_s2amjs6e in
      let a08m1a4c_mj_a2am1a6e := csub a08m1a4c j_a2am1a6e in
      let s08pjs4c_mv_s2apjs6e := csub s08pjs4c v8_s2apjs6e in
      let a08p1a4c_m1_a2ap1a6e := csub a08p1a4c a2ap1a6e in
      let s08mjs4c_mw_s2amjs6e := csub s08mjs4c w8_s2amjs6e in
      let a08m1a4c_pj_a2am1a6e := cadd a08m1a4c j_a2am1a6e in
      let s08pjs4c_pv_s2apjs6e := cadd s08pjs4c v8_s2apjs6e in
      let w8_s3bmjs7f := w8x s3bmjs7f in
      let j_a3bm1a7f := jx a3bm1a7f in
      let v8_s3bpjs7f := v8x s3bpjs7f in
      let a19p1a5d_p1_a3bp1a7f := cadd a19p1a5d a3bp1a7f in
      let s19mjs5d_pw_s3bmjs7f := cadd s19mjs5d w8_s3bmjs7f in
      let a19m1a5d_mj_a3bm1a7f := csub a19m1a5d j_a3bm1a7f in
      let s19pjs5d_mv_s3bpjs7f := csub s19pjs5d v8_s3bpjs7f in
      let a19p1a5d_m1_a3bp1a7f := csub a19p1a5d a3bp1a7f in
      let s19mjs5d_mw_s3bmjs7f := csub s19mjs5d w8_s3bmjs7f in
      let a19m1a5d_pj_a3bm1a7f := cadd a19m1a5d j_a3bm1a7f in
      let s19pjs5d_pv_s3bpjs7f := cadd s19pjs5d v8_s3bpjs7f in
      let h1_s19mjs5d_pw_s3bmjs7f := h1x s19mjs5d_pw_s3bmjs7f in
      let w8_a19m1a5d_mj_a3bm1a7f := w8x a19m1a5d_mj_a3bm1a7f in
      let h3_s19pjs5d_mv_s3bpjs7f := h3x s19pjs5d_mv_s3bpjs7f in
      let j_a19p1a5d_m1_a3bp1a7f := jx a19p1a5d_m1_a3bp1a7f in
      let hd_s19mjs5d_mw_s3bmjs7f := hdx s19mjs5d_mw_s3bmjs7f in
      let v8_a19m1a5d_pj_a3bm1a7f := v8x a19m1a5d_pj_a3bm1a7f in
      let hf_s19pjs5d_pv_s3bpjs7f := hfx s19pjs5d_pv_s3bpjs7f in
      let aA := cadd a08p1a4c_p1_a2ap1a6e a19p1a5d_p1_a3bp1a7f in
      let bB := cmul w1p (cadd s08mjs4c_pw_s2amjs6e h1_s19mjs5d_pw_s3bmjs7f) in
      let cC := cmul w2p (cadd a08m1a4c_mj_a2am1a6e w8_a19m1a5d_mj_a3bm1a7f) in
      let dD := cmul w3p (cadd s08pjs4c_mv_s2apjs6e h3_s19pjs5d_mv_s3bpjs7f) in
      let eE := cmul w4p (csub a08p1a4c_m1_a2ap1a6e j_a19p1a5d_m1_a3bp1a7f) in
      let fF := cmul w5p (csub s08mjs4c_mw_s2amjs6e hd_s19mjs5d_mw_s3bmjs7f) in
      let gG := cmul w6p (csub a08m1a4c_pj_a2am1a6e v8_a19m1a5d_pj_a3bm1a7f) in
      let hH := cmul w7p (csub s08pjs4c_pv_s2apjs6e hf_s19pjs5d_pv_s3bpjs7f) in
      let iI := cmul w8p (csub a08p1a4c_p1_a2ap1a6e a19p1a5d_p1_a3bp1a7f) in
      let jJ := cmul w9p (csub s08mjs4c_pw_s2amjs6e h1_s19mjs5d_pw_s3bmjs7f) in
      let kK := cmul wap (csub a08m1a4c_mj_a2am1a6e w8_a19m1a5d_mj_a3bm1a7f) in
      let lL := cmul wbp (csub s08pjs4c_mv_s2apjs6e h3_s19pjs5d_mv_s3bpjs7f) in
      let mM := cmul wcp (cadd a08p1a4c_m1_a2ap1a6e j_a19p1a5d_m1_a3bp1a7f) in
      let nN := cmul wdp (cadd s08mjs4c_mw_s2amjs6e hd_s19mjs5d_mw_s3bmjs7f) in
      let oO := cmul wep (cadd a08m1a4c_pj_a2am1a6e v8_a19m1a5d_pj_a3bm1a7f) in
      let pP := cmul wfp (cadd s08pjs4c_pv_s2apjs6e hf_s19pjs5d_pv_s3bpjs7f) in
      [aA; bB; cC; dD; eE; fF; gG; hH; iI; jJ; kK; lL; mM; nN; oO; pP]
  | _ => []
  end.
(** dif16_fwdcore1 : the addresses of one lane *)
Definition dif16_fwdcore1_lane (N : nat) (x y W : ptr) (p : nat) : lane C :=
  let N0 := 0 in
  let N1 := N / 16 in
  let N2 := N1 * 2 in
  let N3 := N1 * 3 in
  let N4 := N1 * 4 in
  let N5 := N1 * 5 in
  let N6 := N1 * 6 in
  let N7 := N1 * 7 in
  let N8 := N1 * 8 in
  let N9 := N1 * 9 in
  let Na := N1 * 10 in
  let Nb := N1 * 11 in
  let Nc := N1 * 12 in
  let Nd := N1 * 13 in
  let Ne := N1 * 14 in
  let Nf := N1 * 15 in
  let x_p := x +! p in
  let y_16p := y +! (16 * p) in
    Lane [twid 16 N 1 W p; twid 16 N 2 W p; twid 16 N 3 W p; twid 16 N 4 W p; twid 16 N 5 W p; twid 16 N 6 W p; twid
    16 N 7 W p; twid 16 N 8 W p; twid 16 N 9 W p; twid 16 N 10 W p; twid 16 N 11 W p; twid 16 N 12 W p; twid 16 N 13 W
    p; twid 16 N 14 W p; twid 16 N 15 W p; x_p +! N0; x_p +! N1; x_p +! N2; x_p +! N3; x_p +! N4; x_p +! N5; x_p +!
    N6; x_p +! N7; x_p +! N8; x_p +! N9; x_p +! Na; x_p +! Nb; x_p +! Nc; x_p +! Nd; x_p +! Ne; x_p +! Nf]
              [y_16p +! 0; y_16p +! (0 + 1); y_16p +! 2; y_16p +! (2 + 1); y_16p +! 4; y_16p +! (4 + 1); y_16p +! 6;
         y_16p +! (6 + 1); y_16p +! 8; y_16p +! (8 + 1); y_16p +! 10; y_16p +! (10 + 1); y_16p +! 12; y_16p +! (12 +
         1); y_16p +! 14; y_16p +! (14 + 1)]
       (dif16_fwdcore1_fn).
Definition dif16_fwdcore1 (N : nat) (x y W : ptr) : prog C unit :=
  let N1 := N / 16 in
  for_step N1 2 (fun p => vblock 2 (fun l => dif16_fwdcore1_lane N x y W (p + l))).

(** dif16_fwdend16 : src/otfft_avxdif16.h:371-475, the arithmetic of one lane *)
Definition dif16_fwdend16_fn (N : nat) (mode : smode) (v : list C) : list C :=
  match v with
    | [x0_in; x1_in; x2_in; x3_in; x4_in; x5_in; x6_in; x7_in; x8_in; x9_in; xa_in; xb_in; xc_in; xd_in; xe_in; xf_in]
    =>
      let x0 := scalepz N mode x0_in in
      let x1 := scalepz N mode x1_in in
      let x2 := scalepz N mode x2_in in
      let x3 := scalepz N mode x3_in in
      let x4 := scalepz N mode x4_in in
      let x5 := scalepz N mode x5_in in
      let x6 := scalepz N mode x6_in in
      let x7 := scalepz N mode x7_in in
      let x8 := scalepz N mode x8_in in
      let x9 := scalepz N mode x9_in in
      let xa := scalepz N mode xa_in in
      let xb := scalepz N mode xb_in in
      let xc := scalepz N mode xc_in in
      let xd := scalepz N mode xd_in in
      let xe := scalepz N mode xe_in in
      let xf := scalepz N mode xf_in in
      let a08 := cadd x0 x8 in
      let s08 := csub x0 x8 in
      let a4c := cadd x4 xc in
      let s4c := csub x4 xc in
      let a2a := cadd x2 xa in
      let s2a := csub x2 xa in
      let a6e := cadd x6 xe in
      let s6e := csub x6 xe in
      let a19 := cadd x1 x9 in
      let s19 := csub x1 x9 in
      let a5d := cadd x5 xd in
      let s5d := csub x5 xd in
      let a3b := cadd x3 xb in
      let s3b := csub x3 xb in
      let a7f := cadd x7 xf in
      let s7f := csub x7 xf in
      let js4c := jx s4c in
      let js6e := jx s6e in
      let js5d := jx s5d in
      let js7f := jx s7f in
      let a08p1a4c := cadd a08 a4c in
      let s08mjs4c := csub s08 js4c in
      let a08m1a4c := csub a08 a4c in
      let s08pjs4c := cadd s08 js4c in
      let a2ap1a6e := cadd a2a a6e in
      let s2amjs6e := csub s2a js6e in
      let a2am1a6e := csub a2a a6e in
      let s2apjs6e := cadd s2a js6e in
      let a19p1a5d := cadd a19 a5d in
      let s19mjs5d := csub s19 js5d in
      let a19m1a5d := csub a19 a5d in
      let s19pjs5d := cadd s19 js5d in
      let a3bp1a7f := cadd a3b a7f in
      let s3bmjs7f := csub s3b js7f in
      let a3bm1a7f := csub a3b a7f in
      let s3bpjs7f := cadd s3b js7f in
      let w8_s2amjs6e := w8x s2amjs6e in
      let j_a2am1a6e := jx a2am1a6e in
      let v8_s2apjs6e := v8x s2apjs6e in
      let a08p1a4c_p1_a2ap1a6e := cadd a08p1a4c a2ap1a6e in
      let s08mjs4c_pw_s2amjs6e := cadd s08mjs4c w8_s2amjs6e in
      let a08m1a4c_mj_a2am1a6e := csub a08m1a4c j_a2am1a6e in
      let s08pjs4c_mv_s2apjs6e := csub s08pjs4c v8_s2apjs6e in
      let a08p1a4c_m1_a2ap1a6e := csub a08p1a4c a2ap1a6e in
      let s08mjs4c_mw_s2amjs6e := csub s08mjs4c w8_s2amjs6e in
      let a08m1a4c_pj_a2am1a6e := cadd a08m1a4c j_a2am1a6e in
      let s08pjs4c_pv_s2apjs6e := cadd s08pjs4c v8_s2apjs6e in
      let w8_s3bmjs7f := w8x s3bmjs7f in
      let j_a3bm1a7f := jx a3bm1a7f in
      let v8_s3bpjs7f := v8x s3bpjs7f in
      let a19p1a5d_p1_a3bp1a7f := cadd a19p1a5d a3bp1a7f in
      let s19mjs5d_pw_s3bmjs7f := cadd s19mjs5d w8_s3bmjs7f in
      let a19m1a5d_mj_a3bm1a7f := csub a19m1a5d j_a3bm1a7f in
      let s19pjs5d_mv_s3bpjs7f := csub s19pjs5d v8_s3bpjs7f in
      let a19p1a5d_m1_a3bp1a7f := csub a19p1a5d a3bp1a7f in
      let s19mjs5d_mw_s3bmjs7f := csub s19mjs5d w8_s3bmjs7f in
      let a19m1a5d_pj_a3bm1a7f := cadd a19m1a5d j_a3bm1a7f in
      let s19pjs5d_pv_s3bpjs7f := cadd s19pjs5d v8_s3bpjs7f in
      let h1_s19mjs5d_pw_s3bmjs7f := h1x s19mjs5d_pw_s3bmjs7f in
      let w8_a19m1a5d_mj_a3bm1a7f := w8x a19m1a5d_mj_a3bm1a7f in
      let h3_s19pjs5d_mv_s3bpjs7f := h3x s19pjs5d_mv_s3bpjs7f in
      let j_a19p1a5d_m1_a3bp1a7f := jx a19p1a5d_m1_a3bp1a7f in
      let hd_s19mjs5d_mw_s3bmjs7f := hdx s19mjs5d_mw_s3bmjs7f in
      let v8_a19m1a5d_pj_a3bm1a7f := v8x a19m1a5d_pj_a3bm1a7f in
      let hf_s19pjs5d_pv_s3bpjs7f := hfx s19pjs5d_pv_s3bpjs7f in
            [cadd a08p1a4c_p1_a2ap1a6e a19p1a5d_p1_a3bp1a7f; cadd s08mjs4c_pw_s2amjs6e h1_s19mjs5d_pw_s3bmjs7f; cadd
        a08m1a4c_mj_a2am1a6e w8_a19m1a5d_mj_a3bm1a7f; cadd s08pjs4c_mv_s2apjs6e h3_s19pjs5d_mv_s3bpjs7f; csub
        a08p1a4c_m1_a2ap1a6e j_a19p1a5d_m1_a3bp1a7f; csub s08mjs4c_mw_s2amjs6e hd_s19mjs5d_mw_s3bmjs7f; csub
        a08m1a4c_pj_a2am1a6e v8_a19m1a5d_pj_a3bm1a7f; csub s08pjs4c_pv_s2apjs6e hf_s19pjs5d_pv_s3bpjs7f; csub
        a08p1a4c_p1_a2ap1a6e a19p1a5d_p1_a3bp1a7f; csub s08mjs4c_pw_s2amjs6e h1_s19mjs5d_pw_s3bmjs7f; csub
        a08m1a4c_mj_a2am1a6e w8_a19m1a5d_mj_a3bm1a7f; csub s08pjs4c_mv_s2apjs6e h3_s19pjs5d_mv_s3bpjs7f; cadd
        a08p1a4c_m1_a2ap1a6e j_a19p1a5d_m1_a3bp1a7f; cadd s08mjs4c_mw_s2amjs6e hd_s19mjs5d_mw_s3bmjs7f; cadd
        a08m1a4c_pj_a2am1a6e v8_a19m1a5d_pj_a3bm1a7f; cadd s08pjs4c_pv_s2apjs6e hf_s19pjs5d_pv_s3bpjs7f]
  | _ => []
  end.
(** dif16_fwdend16 : the addresses of one lane *)
Definition dif16_fwdend16_lane (mode : smode) (s : nat) (eo : bool) (x y : ptr) (q : nat) : lane C :=
  let N := 16 * s in
  let z := if eo then y else x in
  let xq := x +! q in
  let zq := z +! q in
    Lane [xq +! (s * 0); xq +! (s * 1); xq +! (s * 2); xq +! (s * 3); xq +! (s * 4); xq +! (s * 5); xq +! (s * 6); xq
    +! (s * 7); xq +! (s * 8); xq +! (s * 9); xq +! (s * 10); xq +! (s * 11); xq +! (s * 12); xq +! (s * 13); xq +! (s
    * 14); xq +! (s * 15)]
              [zq +! (s * 0); zq +! (s * 1); zq +! (s * 2); zq +! (s * 3); zq +! (s * 4); zq +! (s * 5); zq +! (s *
         6); zq +! (s * 7); zq +! (s * 8); zq +! (s * 9); zq +! (s * 10); zq +! (s * 11); zq +! (s * 12); zq +! (s *
         13); zq +! (s * 14); zq +! (s * 15)]
       (dif16_fwdend16_fn N mode).
Definition dif16_fwdend16 (mode : smode) (s : nat) (eo : bool) (x y : ptr) : prog C unit :=
  for_step s 2 (fun q => vblock 2 (fun l => dif16_fwdend16_lane mode s eo x y (q + l))).

(** dif16_fwdend16_1 : src/otfft_avxdif16.h:477-575, the arithmetic of one lane *)
Definition dif16_fwdend16_1_fn (mode : smode) (v : list C) : list C :=
  match v with
    | [x0_in; x1_in; x2_in; x3_in; x4_in; x5_in; x6_in; x7_in; x8_in; x9_in; xa_in; xb_in; xc_in; xd_in; xe_in; xf_in]
    =>
      let x0 := scalepz 16 mode x0_in in
      let x1 := scalepz 16 mode x1_in in
      let x2 := scalepz 16 mode x2_in in
      let x3 := scalepz 16 mode x3_in in
      let x4 := scalepz 16 mode x4_in in
      let x5 := scalepz 16 mode x5_in in
      let x6 := scalepz 16 mode x6_in in
      let x7 := scalepz 16 mode x7_in in
      let x8 := scalepz 16 mode x8_in in
      let x9 := scalepz 16 mode x9_in in
      let xa := scalepz 16 mode xa_in in
      let xb := scalepz 16 mode xb_in in
      let xc := scalepz 16 mode xc_in in
      let xd := scalepz 16 mode xd_in in
      let xe := scalepz 16 mode xe_in in
      let xf := scalepz 16 mode xf_in in
      let a08 := cadd x0 x8 in
      let s08 := csub x0 x8 in
      let a4c := cadd x4 xc in
      let s4c := csub x4 xc in
      let a2a := cadd x2 xa in
      let s2a := csub x2 xa in
      let a6e := cadd x6 xe in
      let s6e := csub x6 xe in
      let a19 := cadd x1 x9 in
      let s19 := csub x1 x9 in
      let a5d := cadd x5 xd in
      let s5d := csub x5 xd in
      let a3b := cadd x3 xb in
      let s3b := csub x3 xb in
      let a7f := cadd x7 xf in
      let s7f := csub x7 xf in
      let js4c := jx s4c in
      let js6e := jx s6e in
      let js5d := jx s5d in
      let js7f := jx s7f in
      let a08p1a4c := cadd a08 a4c in
      let s08mjs4c := csub s08 js4c in
      let a08m1a4c := csub a08 a4c in
      let s08pjs4c := cadd s08 js4c in
      let a2ap1a6e := cadd a2a a6e in
      let s2amjs6e := csub s2a js6e in
      let a2am1a6e := csub a2a a6e in
      let s2apjs6e := cadd s2a js6e in
      let a19p1a5d := cadd a19 a5d in
      let s19mjs5d := csub s19 js5d in
      let a19m1a5d := csub a19 a5d in
      let s19pjs5d := cadd s19 js5d in
      let a3bp1a7f := cadd a3b a7f in
      let s3bmjs7f := csub s3b js7f in
      let a3bm1a7f := csub a3b a7f in
      let s3bpjs7f := cadd s3b js7f in
      let w8_s2amjs6e := w8x s2amjs6e in
      let j_a2am1a6e := jx a2am1a6e in
      let v8_s2apjs6e := v8x s2apjs6e in
      let a08p1a4c_p1_a2ap1a6e := cadd a08p1a4c a2ap1a6e in
      let s08mjs4c_pw_s2amjs6e := cadd s08mjs4c w8_s2amjs6e in
      let a08m1a4c_mj_a2am1a6e := csub a08m1a4c j_a2am1a6e in
      let s08pjs4c_mv_s2apjs6e := csub s08pjs4c v8_s2apjs6e in
      let a08p1a4c_m1_a2ap1a6e := csub a08p1a4c a2ap1a6e in
      let s08mjs4c_mw_s2amjs6e := csub s08mjs4c w8_s2amjs6e in
      let a08m1a4c_pj_a2am1a6e := cadd a08m1a4c j_a2am1a6e in
      let s08pjs4c_pv_s2apjs6e := cadd s08pjs4c v8_s2apjs6e in
      let w8_s3bmjs7f := w8x s3bmjs7f in
      let j_a3bm1a7f := jx a3bm1a7f in
      let v8_s3bpjs7f := v8x s3bpjs7f in
      let a19p1a5d_p1_a3bp1a7f := cadd a19p1a5d a3bp1a7f in
      let s19mjs5d_pw_s3bmjs7f := cadd s19mjs5d w8_s3bmjs7f in
      let a19m1a5d_mj_a3bm1a7f := csub a19m1a5d j_a3bm1a7f in
      let s19pjs5d_mv_s3bpjs7f := csub s19pjs5d v8_s3bpjs7f in
      let a19p1a5d_m1_a3bp1a7f := csub a19p1a5d a3bp1a7f in
      let s19mjs5d_mw_s3bmjs7f := csub s19mjs5d w8_s3bmjs7f in
      let a19m1a5d_pj_a3bm1a7f := cadd a19m1a5d j_a3bm1a7f in
      let s19pjs5d_pv_s3bpjs7f := cadd s19pjs5d v8_s3bpjs7f in
      let h1_s19mjs5d_pw_s3bmjs7f := h1x s19mjs5d_pw_s3bmjs7f in
      let w8_a19m1a5d_mj_a3bm1a7f := w8x a19m1a5d_mj_a3bm1a7f in
      let h3_s19pjs5d_mv_s3bpjs7f := h3x s19pjs5d_mv_s3bpjs7f in
      let j_a19p1a5d_m1_a3bp1a7f := jx a19p1a5d_m1_a3bp1a7f in
      let hd_s19mjs5d_mw_s3bmjs7f := hdx s19mjs5d_mw_s3bmjs7f in
      let v8_a19m1a5d_pj_a3bm1a7f := v8x a19m1a5d_pj_a3bm1a7f in
      let hf_s19pjs5d_pv_s3bpjs7f := hfx s19pjs5d_pv_s3bpjs7f in
            [cadd a08p1a4c_p1_a2ap1a6e a19p1a5d_p1_a3bp1a7f; cadd s08mjs4c_pw_s2amjs6e h1_s19mjs5d_pw_s3bmjs7f; cadd
        a08m1a4c_mj_a2am1a6e w8_a19m1a5d_mj_a3bm1a7f; cadd s08pjs4c_mv_s2apjs6e h3_s19pjs5d_mv_s3bpjs7f; csub
        a08p1a4c_m1_a2ap1a6e j_a19p1a5d_m1_a3bp1a7f; csub s08mjs4c_mw_s2amjs6e hd_s19mjs5d_mw_s3bmjs7f; csub
        a08m1a4c_pj_a2am1a6e v8_a19m1a5d_pj_a3bm1a7f; csub s08pjs4c_pv_s2apjs6e hf_s19pjs5d_pv_s3bpjs7f; csub
        a08p1a4c_p1_a2ap1a6e a19p1a5d_p1_a3bp1a7f; csub s08mjs4c_pw_s2amjs6e h1_s19mjs5d_pw_s3bmjs7f; csub
        a08m1a4c_mj_a2am1a6e w8_a19m1a5d_mj_a3bm1a7f; csub s08pjs4c_mv_s2apjs6e h3_s19pjs5d_mv_s3bpjs7f; cadd
        a08p1a4c_m1_a2ap1a6e j_a19p1a5d_m1_a3bp1a7f; cadd s08mjs4c_mw_s2amjs6e hd_s19mjs5d_mw_s3bmjs7f; cadd
        a08m1a4c_pj_a2am1a6e v8_a19m1a5d_pj_a3bm1a7f; cadd s08pjs4c_pv_s2apjs6e hf_s19pjs5d_pv_s3bpjs7f]
  | _ => []
  end.
(** dif16_fwdend16_1 : the addresses of one lane *)
Definition dif16_fwdend16_1_lane (mode : smode) (eo : bool) (x y : ptr) : lane C :=
  let z := if eo then y else x in
    Lane [x +! 0; x +! 1; x +! 2; x +! 3; x +! 4; x +! 5; x +! 6; x +! 7; x +! 8; x +! 9; x +! 10; x +! 11; x +! 12; x
    +! 13; x +! 14; x +! 15]
              [z +! 0; z +! 1; z +! 2; z +! 3; z +! 4; z +! 5; z +! 6; z +! 7; z +! 8; z +! 9; z +! 10; z +! 11; z +!
         12; z +! 13; z +! 14; z +! 15]
       (dif16_fwdend16_1_fn mode).
Definition dif16_fwdend16_1 (mode : smode) (eo : bool) (x y : ptr) : prog C unit :=
  lblock (dif16_fwdend16_1_lane mode eo x y).

(** dif16_invcore : src/otfft_avxdif16.h:631-773, the arithmetic of one lane *)
Definition dif16_invcore_fn (v : list C) : list C :=
  match v with
    | [w1p_in; w2p_in; w3p_in; w4p_in; w5p_in; w6p_in; w7p_in; w8p_in; w9p_in; wap_in; wbp_in; wcp_in; wdp_in; wep_in;
    wfp_in; x0; x1; x2; x3; x4; x5; x6; x7; x8; x9; xa; xb; xc; xd; xe; xf] =>
      let w1p := cconj w1p_in in
      let w2p := cconj w2p_in in
      let w3p := cconj w3p_in in
      let w4p := cconj w4p_in in
      let w5p := cconj w5p_in in
      let w6p := cconj w6p_in in
      let w7p := cconj w7p_in in
      let w8p := cconj w8p_in in
      let w9p := cconj w9p_in in
      let wap := cconj wap_in in
      let wbp := cconj wbp_in in
      let wcp := cconj wcp_in in
      let wdp := cconj wdp_in in
      let wep := cconj wep_in in
      let wfp := cconj wfp_in in
      let a08 := cadd x0 x8 in
      let s08 := csub x0 x8 in
      let a4c := cadd x4 xc in
      let s4c := csub x4 xc in
      let a2a := cadd x2 xa in
      let s2a := csub x2 xa in
      let a6e := cadd x6 xe in
      let s6e := csub x6 xe in
      let a19 := cadd x1 x9 in
      let s19 := csub x1 x9 in
      let a5d := cadd x5 xd in
      let s5d := csub x5 xd in
      let a3b := cadd x3 xb in
      let s3b := csub x3 xb in
      let a7f := cadd x7 xf in
      let s7f := csub x7 xf in
      let js4c := jx s4c in
      let js6e := jx s6e in
      let js5d := jx s5d in
      let js7f := jx s7f in
      let a08p1a4c := cadd a08 a4c in
      let s08mjs4c := csub s08 js4c in
      let a08m1a4c := csub a08 a4c in
      let s08pjs4c := cadd s08 js4c in
      let a2ap1a6e := cadd a2a a6e in
      let s2amjs6e := csub s2a js6e in
      let a2am1a6e := csub a2a a6e in
      let s2apjs6e := cadd s2a js6e in
      let a19p1a5d := cadd a19 a5d in
      let s19mjs5d := csub s19 js5d in
      let a19m1a5d := csub a19 a5d in
      let s19pjs5d := cadd s19 js5d in
      let a3bp1a7f := cadd a3b a7f in
      let s3bmjs7f := csub s3b js7f in
      let a3bm1a7f := csub a3b a7f in
      let s3bpjs7f := cadd s3b js7f in
      let w8_s2amjs6e := w8x s2amjs6e in
      let j_a2am1a6e := jx a2am1a6e in
      let v8_s2apjs6e := v8x s2apjs6e in
      let a08p1a4c_p1_a2ap1a6e := cadd a08p1a4c a2ap1a6e in
      let s08mjs4c_pw_s2amjs6e := cadd s08mjs4c w8_s2amjs6e in
      let a08m1a4c_mj_a2am1a6e := csub a08m1a4c j_a2am1a6e in
      let s08pjs4c_mv_s2apjs6e := csub s08pjs4c v8_s2apjs6e in
      let a08p1a4c_m1_a2ap1a6e := csub a08p1a4c a2ap1a6e in
      let s08mjs4c_mw_s2amjs6e := csub s08mjs4c w8_s2amjs6e in
      let a08m1a4c_pj_a2am1a6e := cadd a08m1a4c j_a2am1a6e in
      let s08pjs4c_pv_s2apjs6e := cadd s08pjs4c v8_s2apjs6e in
      let w8_s3bmjs7f := w8x s3bmjs7f in
      let j_a3bm1a7f := jx a3bm1a7f in
      let v8_s3bpjs7f := v8x s3bpjs7f in
      let a19p1a5d_p1_a3bp1a7f := cadd a19p1a5d a3bp1a7f in
      let s19mjs5d_pw_s3bmjs7f := cadd s19mjs5d w8_s3bmjs7f in
      let a19m1a5d_mj_a3bm1a7f := csub a19m1a5d j_a3bm1a7f in
      let s19pjs5d_mv_s3bpjs7f := csub s19pjs5d v8_s3bpjs7f in
      let a19p1a5d_m1_a3bp1a7f := csub a19p1a5d a3bp1a7f in
      let s19mjs5d_mw_s3bmjs7f := csub s19mjs5d w8_s3bmjs7f in
      let a19m1a5d_pj_a3bm1a7f := cadd a19m1a5d j_a3bm1a7f in
      let s19pjs5d_pv_s3bpjs7f := cadd s19pjs5d v8_s3bpjs7f in
      let h1_s19mjs5d_pw_s3bmjs7f := h1x s19mjs5d_pw_s3bmjs7f in
      let w8_a19m1a5d_mj_a3bm1a7f := w8x a19m1a5d_mj_a3bm1a7f in
      let h3_s19pjs5d_mv_s3bpjs7f := h3x s19pjs5d_mv_s3bpjs7f in
      let j_a19p1a5d_m1_a3bp1a7f := jx a19p1a5d_m1_a3bp1a7f in
      let hd_s19mjs5d_mw_s3bmjs7f := hdx s19mjs5d_mw_s3bmjs7f in
      let v8_a19m1a5d_pj_a3bm1a7f := v8x a19m1a5d_pj_a3bm1a7f in
      let hf_s19pjs5d_pv_s3bpjs7f := hfx s19pjs5d_pv_s3bpjs7f in
            [cadd a08p1a4c_p1_a2ap1a6e a19p1a5d_p1_a3bp1a7f; cmul w1p (cadd s08pjs4c_pv_s2apjs6e
        hf_s19pjs5d_pv_s3bpjs7f); cmul w2p (cadd a08m1a4c_pj_a2am1a6e v8_a19m1a5d_pj_a3bm1a7f); cmul w3p (cadd
        s08mjs4c_mw_s2amjs6e hd_s19mjs5d_mw_s3bmjs7f); cmul w4p (cadd a08p1a4c_m1_a2ap1a6e j_a19p1a5d_m1_a3bp1a7f);
        cmul w5p (csub s08pjs4c_mv_s2apjs6e h3_s19pjs5d_mv_s3bpjs7f); cmul w6p (csub a08m1a4c_mj_a2am1a6e
        w8_a19m1a5d_mj_a3bm1a7f); cmul w7p (csub s08mjs4c_pw_s2amjs6e h1_s19mjs5d_pw_s3bmjs7f); cmul w8p (csub
        a08p1a4c_p1_a2ap1a6e a19p1a5d_p1_a3bp1a7f); cmul w9p (csub s08pjs4c_pv_s2apjs6e hf_s19pjs5d_pv_s3bpjs7f); cmul
        wap (csub a08m1a4c_pj_a2am1a6e v8_a19m1a5d_pj_a3bm1a7f); cmul wbp (csub s08mjs4c_mw_s2amjs6e
        hd_s19mjs5d_mw_s3bmjs7f); cmul wcp (csub a08p1a4c_m1_a2ap1a6e j_a19p1a5d_m1_a3bp1a7f); cmul wdp (cadd
        s08pjs4c_mv_s2apjs6e h3_s19pjs5d_mv_s3bpjs7f); cmul wep (cadd a08m1a4c_mj_a2am1a6e w8_a19m1a5d_mj_a3bm1a7f);
        cmul wfp (cadd s08mjs4c_pw_s2amjs6e h1_s19mjs5d_pw_s3bmjs7f)]
  | _ => []
  end.
(** dif16_invcore : the addresses of one lane *)
Definition dif16_invcore_lane (n s : nat) (x y W : ptr) (p q : nat) : lane C :=
  let N := n * s in
  let N0 := 0 in
  let N1 := N / 16 in
  let N2 := N1 * 2 in
  let N3 := N1 * 3 in
  let N4 := N1 * 4 in
  let N5 := N1 * 5 in
  let N6 := N1 * 6 in
  let N7 := N1 * 7 in
  let N8 := N1 * 8 in
  let N9 := N1 * 9 in
  let Na := N1 * 10 in
  let Nb := N1 * 11 in
  let Nc := N1 * 12 in
  let Nd := N1 * 13 in
  let Ne := N1 * 14 in
  let Nf := N1 * 15 in
  let sp := s * p in
  let s16p := 16 * sp in
  let xq_sp := x +! (q + sp) in
  let yq_s16p := y +! (q + s16p) in
    Lane [twidT 16 N 1 W sp; twidT 16 N 2 W sp; twidT 16 N 3 W sp; twidT 16 N 4 W sp; twidT 16 N 5 W sp; twidT 16 N 6
    W sp; twidT 16 N 7 W sp; twidT 16 N 8 W sp; twidT 16 N 9 W sp; twidT 16 N 10 W sp; twidT 16 N 11 W sp; twidT 16 N
    12 W sp; twidT 16 N 13 W sp; twidT 16 N 14 W sp; twidT 16 N 15 W sp; xq_sp +! N0; xq_sp +! N1; xq_sp +! N2; xq_sp
    +! N3; xq_sp +! N4; xq_sp +! N5; xq_sp +! N6; xq_sp +! N7; xq_sp +! N8; xq_sp +! N9; xq_sp +! Na; xq_sp +! Nb;
    xq_sp +! Nc; xq_sp +! Nd; xq_sp +! Ne; xq_sp +! Nf]
              [yq_s16p +! (s * 0); yq_s16p +! (s * 1); yq_s16p +! (s * 2); yq_s16p +! (s * 3); yq_s16p +! (s * 4);
         yq_s16p +! (s * 5); yq_s16p +! (s * 6); yq_s16p +! (s * 7); yq_s16p +! (s * 8); yq_s16p +! (s * 9); yq_s16p
         +! (s * 10); yq_s16p +! (s * 11); yq_s16p +! (s * 12); yq_s16p +! (s * 13); yq_s16p +! (s * 14); yq_s16p +!
         (s * 15)]
       (dif16_invcore_fn).
Definition dif16_invcore (n s : nat) (x y W : ptr) : prog C unit :=
  let m := n / 16 in
  for_ m (fun p => for_step s 2 (fun q => vblock 2 (fun l => dif16_invcore_lane n s x y W p (q + l)))).

(** dif16_invcore1 : src/otfft_avxdif16.h:775-962, the arithmetic of one lane *)
Definition dif16_invcore1_fn (v : list C) : list C :=
  match v with
    | [w1p_in; w2p_in; w3p_in; w4p_in; w5p_in; w6p_in; w7p_in; w8p_in; w9p_in; wap_in; wbp_in; wcp_in; wdp_in; wep_in;
    wfp_in; x0; x1; x2; x3; x4; x5; x6; x7; x8; x9; xa; xb; xc; xd; xe; xf] =>
      let a08 := cadd x0 x8 in
      let s08 := csub x0 x8 in
      let a4c := cadd x4 xc in
      let s4c := csub x4 xc in
      let a2a := cadd x2 xa in
      let s2a := csub x2 xa in
      let a6e := cadd x6 xe in
      let s6e := csub x6 xe in
      let a19 := cadd x1 x9 in
      let s19 := csub x1 x9 in
      let a5d := cadd x5 xd in
      let s5d := csub x5 xd in
      let a3b := cadd x3 xb in
      let s3b := csub x3 xb in
      let a7f := cadd x7 xf in
      let s7f := csub x7 xf in
      let js4c := jx s4c in
      let js6e := jx s6e in
      let js5d := jx s5d in
      let js7f := jx s7f in
      let a08p1a4c := cadd a08 a4c in
      let s08mjs4c := csub s08 js4c in
      let a08m1a4c := csub a08 a4c in
      let s08pjs4c := cadd s08 js4c in
      let a2ap1a6e := cadd a2a a6e in
      let s2amjs6e := csub s2a js6e in
      let a2am1a6e := csub a2a a6e in
      let s2apjs6e := cadd s2a js6e in
      let a19p1a5d := cadd a19 a5d in
      let s19mjs5d := csub s19 js5d in
      let a19m1a5d := csub a19 a5d in
      let s19pjs5d := cadd s19 js5d in
      let a3bp1a7f := cadd a3b a7f in
      let s3bmjs7f := csub s3b js7f in
      let a3bm1a7f := csub a3b a7f in
      let s3bpjs7f := cadd s3b js7f in
      let w8_s2amjs6e := w8x s2amjs6e in
      let j_a2am1a6e := jx a2am1a6e in
      let v8_s2apjs6e := v8x s2apjs6e in
      let a08p1a4c_p1_a2ap1a6e := cadd a08p1a4c a2ap1a6e in
      let s08mjs4c_pw_s2amjs6e := cadd s08mjs4c w8_s2amjs6e in
      let a08m1a4c_mj_a2am1a6e := csub a08m1a4c j_a2am1a6e in
      let s08pjs4c_mv_s2apjs6e := csub s08pjs4c v8_s2apjs6e in
      let a08p1a4c_m1_a2ap1a6e := csub a08p1a4c a2ap1a6e in
      let s08mjs4c_mw_s2amjs6e := csub s08mjs4c w8_s2amjs6e in
      let a08m1a4c_pj_a2am1a6e := cadd a08m1a4c j_a2am1a6e in
      let s08pjs4c_pv_s2apjs6e := cadd s08pjs4c v8_s2apjs6e in
      let w8_s3bmjs7f := w8x s3bmjs7f in
      let j_a3bm1a7f := jx a3bm1a7f in
      let v8_s3bpjs7f := v8x s3bpjs7f in
      let a19p1a5d_p1_a3bp1a7f := cadd a19p1a5d a3bp1a7f in
      let s19mjs5d_pw_s3bmjs7f := cadd s19mjs5d w8_s3bmjs7f in
      let a19m1a5d_mj_a3bm1a7f := csub a19m1a5d j_a3bm1a7f in
      let s19pjs5d_mv_s3bpjs7f := csub s19pjs5d v8_s3bpjs7f in
      let a19p1a5d_m1_a3bp1a7f := csub a19p1a5d a3bp1a7f in
      let s19mjs5d_mw_s3bmjs7f := csub s19mjs5d w8_s3bmjs7f in
      let a19m1a5d_pj_a3bm1a7f := cadd a19m1a5d j_a3bm1a7f in
      let s19pjs5d_pv_s3bpjs7f := cadd s19pjs5d v8_s3bpjs7f in
      let h1_s19mjs5d_pw_s3bmjs7f := h1x s19mjs5d_pw_s3bmjs7f in
      let w8_a19m1a5d_mj_a3bm1a7f := w8x a19m1a5d_mj_a3bm1a7f in
      let h3_s19pjs5d_mv_s3bpjs7f := h3x s19pjs5d_mv_s3bpjs7f in
      let j_a19p1a5d_m1_a3bp1a7f := jx a19p1a5d_m1_a3bp1a7f in
      let hd_s19mjs5d_mw_s3bmjs7f := hdx s19mjs5d_mw_s3bmjs7f in
      let v8_a19m1a5d_pj_a3bm1a7f := v8x a19m1a5d_pj_a3bm1a7f in
      let hf_s19pjs5d_pv_s3bpjs7f := hfx s19pjs5d_pv_s3bpjs7f in
      let w1p := cconj w1p_in in
      let w2p := cconj w2p_in in
      let w3p := cconj w3p_in in
      let w4p := cconj w4p_in in
      let w5p := cconj w5p_in in
      let w6p := cconj w6p_in in
      let w7p := cconj w7p_in in
      let w8p := cconj w8p_in in
      let w9p := cconj w9p_in in
      let wap := cconj wap_in in
      let wbp := cconj wbp_in in
      let wcp := cconj wcp_in in
      let wdp := cconj wdp_in in
      let wep := cconj wep_in in
      let wfp := cconj wfp_in in
      let aA := cadd a08p1a4c_p1_a2ap1a6e a19p1a5d_p1_a3bp1a7f in
      let bB := cmul w1p (cadd s08pjs4c_pv_s2apjs6e hf_s19pjs5d_pv_s3bpjs7f) in
      let cC := cmul w2p (cadd a08m1a4c_pj_a2am1a6e v8_a19m1a5d_pj_a3bm1a7f) in
      let dD := cmul w3p (cadd s08mjs4c_mw_s2amjs6e hd_s19mjs5d_mw_s3bmjs7f) in
      let eE := cmul w4p (cadd a08p1a4c_m1_a2ap1a6e j_a19p1a5d_m1_a3bp1a7f) in
      let fF := cmul w5p (csub s08pjs4c_mv_s2apjs6e h3_s19pjs5d_mv_s3bpjs7f) in
      let gG := cmul w6p (csub a08m1a4c_mj_a2am1a6e w8_a19m1a5d_mj_a3bm1a7f) in
      let hH := cmul w7p (csub s08mjs4c_pw_s2amjs6e h1_s19mjs5d_pw_s3bmjs7f) in
      let iI := cmul w8p (csub a08p1a4c_p1_a2ap1a6e a19p1a5d_p1_a3bp1a7f) in
      let jJ := cmul w9p (csub s08pjs4c_pv_s2apjs6e hf_s19pjs5d_pv_s3bpjs7f) in
      let kK := cmul wap (csub a08m1a4c_pj_a2am1a6e v8_a19m1a5d_pj_a3bm1a7f) in
      let lL := cmul wbp (csub s08mjs4c_mw_s2amjs6e hd_s19mjs5d_mw_s3bmjs7f) in
      let mM := cmul wcp (csub a08p1a4c_m1_a2ap1a6e j_a19p1a5d_m1_a3bp1a7f) in
      let nN := cmul wdp (cadd s08pjs4c_mv_s2apjs6e h3_s19pjs5d_mv_s3bpjs7f) in
      let oO := cmul wep (cadd a08m1a4c_mj_a2am1a6e w8_a19m1a5d_mj_a3bm1a7f) in
      let pP := cmul wfp (cadd s08mjs4c_pw_s2amjs6e h1_s19mjs5d_pw_s3bmjs7f) in
      [aA; bB; cC; dD; eE; fF; gG; hH; iI; jJ; kK; lL; mM; nN; oO; pP]
  | _ => []
  end.
(** dif16_invcore1 : the addresses of one lane *)
Definition dif16_invcore1_lane (N : nat) (x y W : ptr) (p : nat) : lane C :=
  let N0 := 0 in
  let N1 := N / 16 in
  let N2 := N1 * 2 in
  let N3 := N1 * 3 in
  let N4 := N1 * 4 in
  let N5 := N1 * 5 in
  let N6 := N1 * 6 in
  let N7 := N1 * 7 in
  let N8 := N1 * 8 in
  let N9 := N1 * 9 in
  let Na := N1 * 10 in
  let Nb := N1 * 11 in
  let Nc := N1 * 12 in
  let Nd := N1 * 13 in
  let Ne := N1 * 14 in
  let Nf := N1 * 15 in
  let x_p := x +! p in
  let y_16p := y +! (16 * p) in
    Lane [twid 16 N 1 W p; twid 16 N 2 W p; twid 16 N 3 W p; twid 16 N 4 W p; twid 16 N 5 W p; twid 16 N 6 W p; twid
    16 N 7 W p; twid 16 N 8 W p; twid 16 N 9 W p; twid 16 N 10 W p; twid 16 N 11 W p; twid 16 N 12 W p; twid 16 N 13 W
    p; twid 16 N 14 W p; twid 16 N 15 W p; x_p +! N0; x_p +! N1; x_p +! N2; x_p +! N3; x_p +! N4; x_p +! N5; x_p +!
    N6; x_p +! N7; x_p +! N8; x_p +! N9; x_p +! Na; x_p +! Nb; x_p +! Nc; x_p +! Nd; x_p +! Ne; x_p +! Nf]
              [y_16p +! 0; y_16p +! (0 + 1); y_16p +! 2; y_16p +! (2 + 1); y_16p +! 4; y_16p +! (4 + 1); y_16p +! 6;
         y_16p +! (6 + 1); y_16p +! 8; y_16p +! (8 + 1); y_16p +! 10; y_16p +! (10 + 1); y_16p +! 12; y_16p +! (12 +
         1); y_16p +! 14; y_16p +! (14 + 1)]
       (dif16_invcore1_fn).
Definition dif16_invcore1 (N : nat) (x y W : ptr) : prog C unit :=
  let N1 := N / 16 in
  for_step N1 2 (fun p => vblock 2 (fun l => dif16_invcore1_lane N x y W (p + l))).

(** dif16_invend16 : src/otfft_avxdif16.h:970-1074, the arithmetic of one lane *)
Definition dif16_invend16_fn (N : nat) (mode : smode) (v : list C) : list C :=
  match v with
    | [x0_in; x1_in; x2_in; x3_in; x4_in; x5_in; x6_in; x7_in; x8_in; x9_in; xa_in; xb_in; xc_in; xd_in; xe_in; xf_in]
    =>
      let x0 := scalepz N mode x0_in in
      let x1 := scalepz N mode x1_in in
      let x2 := scalepz N mode x2_in in
      let x3 := scalepz N mode x3_in in
      let x4 := scalepz N mode x4_in in
      let x5 := scalepz N mode x5_in in
      let x6 := scalepz N mode x6_in in
      let x7 := scalepz N mode x7_in in
      let x8 := scalepz N mode x8_in in
      let x9 := scalepz N mode x9_in in
      let xa := scalepz N mode xa_in in
      let xb := scalepz N mode xb_in in
      let xc := scalepz N mode xc_in in
      let xd := scalepz N mode xd_in in
      let xe := scalepz N mode xe_in in
      let xf := scalepz N mode xf_in in
      let a08 := cadd x0 x8 in
      let s08 := csub x0 x8 in
      let a4c := cadd x4 xc in
      let s4c := csub x4 xc in
      let a2a := cadd x2 xa in
      let s2a := csub x2 xa in
      let a6e := cadd x6 xe in
      let s6e := csub x6 xe in
      let a19 := cadd x1 x9 in
      let s19 := csub x1 x9 in
      let a5d := cadd x5 xd in
      let s5d := csub x5 xd in
      let a3b := cadd x3 xb in
      let s3b := csub x3 xb in
      let a7f := cadd x7 xf in
      let s7f := csub x7 xf in
      let js4c := jx s4c in
      let js6e := jx s6e in
      let js5d := jx s5d in
      let js7f := jx s7f in
      let a08p1a4c := cadd a08 a4c in
      let s08mjs4c := csub s08 js4c in
      let a08m1a4c := csub a08 a4c in
      let s08pjs4c := cadd s08 js4c in
      let a2ap1a6e := cadd a2a a6e in
      let s2amjs6e := csub s2a js6e in
      let a2am1a6e := csub a2a a6e in
      let s2apjs6e := cadd s2a js6e in
      let a19p1a5d := cadd a19 a5d in
      let s19mjs5d := csub s19 js5d in
      let a19m1a5d := csub a19 a5d in
      let s19pjs5d := cadd s19 js5d in
      let a3bp1a7f := cadd a3b a7f in
      let s3bmjs7f := csub s3b js7f in
      let a3bm1a7f := csub a3b a7f in
      let s3bpjs7f := cadd s3b js7f in
      let w8_s2amjs6e := w8x s2amjs6e in
      let j_a2am1a6e := jx a2am1a6e in
      let v8_s2apjs6e := v8x s2apjs6e in
      let a08p1a4c_p1_a2ap1a6e := cadd a08p1a4c a2ap1a6e in
      let s08mjs4c_pw_s2amjs6e := cadd s08mjs4c w8_s2amjs6e in
      let a08m1a4c_mj_a2am1a6e := csub a08m1a4c j_a2am1a6e in
      let s08pjs4c_mv_s2apjs6e := csub s08pjs4c v8_s2apjs6e in
      let a08p1a4c_m1_a2ap1a6e := csub a08p1a4c a2ap1a6e in
      let s08mjs4c_mw_s2amjs6e := csub s08mjs4c w8_s2amjs6e in
      let a08m1a4c_pj_a2am1a6e := cadd a08m1a4c j_a2am1a6e in
      let s08pjs4c_pv_s2apjs6e := cadd s08pjs4c v8_s2apjs6e in
      let w8_s3bmjs7f := w8x s3bmjs7f in
      let j_a3bm1a7f := jx a3bm1a7f in
      let v8_s3bpjs7f := v8x s3bpjs7f in
      let a19p1a5d_p1_a3bp1a7f := cadd a19p1a5d a3bp1a7f in
      let s19mjs5d_pw_s3bmjs7f := cadd s19mjs5d w8_s3bmjs7f in
      let a19m1a5d_mj_a3bm1a7f := csub a19m1a5d j_a3bm1a7f in
      let s19pjs5d_mv_s3bpjs7f := csub s19pjs5d v8_s3bpjs7f in
      let a19p1a5d_m1_a3bp1a7f := csub a19p1a5d a3bp1a7f in
      let s19mjs5d_mw_s3bmjs7f := csub s19mjs5d w8_s3bmjs7f in
      let a19m1a5d_pj_a3bm1a7f := cadd a19m1a5d j_a3bm1a7f in
      let s19pjs5d_pv_s3bpjs7f := cadd s19pjs5d v8_s3bpjs7f in
      let h1_s19mjs5d_pw_s3bmjs7f := h1x s19mjs5d_pw_s3bmjs7f in
      let w8_a19m1a5d_mj_a3bm1a7f := w8x a19m1a5d_mj_a3bm1a7f in
      let h3_s19pjs5d_mv_s3bpjs7f := h3x s19pjs5d_mv_s3bpjs7f in
      let j_a19p1a5d_m1_a3bp1a7f := jx a19p1a5d_m1_a3bp1a7f in
      let hd_s19mjs5d_mw_s3bmjs7f := hdx s19mjs5d_mw_s3bmjs7f in
      let v8_a19m1a5d_pj_a3bm1a7f := v8x a19m1a5d_pj_a3bm1a7f in
      let hf_s19pjs5d_pv_s3bpjs7f := hfx s19pjs5d_pv_s3bpjs7f in
            [cadd a08p1a4c_p1_a2ap1a6e a19p1a5d_p1_a3bp1a7f; cadd s08pjs4c_pv_s2apjs6e hf_s19pjs5d_pv_s3bpjs7f; cadd
        a08m1a4c_pj_a2am1a6e v8_a19m1a5d_pj_a3bm1a7f; cadd s08mjs4c_mw_s2amjs6e hd_s19mjs5d_mw_s3bmjs7f; cadd
        a08p1a4c_m1_a2ap1a6e j_a19p1a5d_m1_a3bp1a7f; csub s08pjs4c_mv_s2apjs6e h3_s19pjs5d_mv_s3bpjs7f; csub
        a08m1a4c_mj_a2am1a6e w8_a19m1a5d_mj_a3bm1a7f; csub s08mjs4c_pw_s2amjs6e h1_s19mjs5d_pw_s3bmjs7f; csub
        a08p1a4c_p1_a2ap1a6e a19p1a5d_p1_a3bp1a7f; csub s08pjs4c_pv_s2apjs6e hf_s19pjs5d_pv_s3bpjs7f; csub
        a08m1a4c_pj_a2am1a6e v8_a19m1a5d_pj_a3bm1a7f; csub s08mjs4c_mw_s2amjs6e hd_s19mjs5d_mw_s3bmjs7f; csub
        a08p1a4c_m1_a2ap1a6e j_a19p1a5d_m1_a3bp1a7f; cadd s08pjs4c_mv_s2apjs6e h3_s19pjs5d_mv_s3bpjs7f; cadd
        a08m1a4c_mj_a2am1a6e w8_a19m1a5d_mj_a3bm1a7f; cadd s08mjs4c_pw_s2amjs6e h1_s19mjs5d_pw_s3bmjs7f]
  | _ => []
  end.
(** dif16_invend16 : the addresses of one lane *)
Definition dif16_invend16_lane (mode : smode) (s : nat) (eo : bool) (x y : ptr) (q : nat) : lane C :=
  let N := 16 * s in
  let z := if eo then y else x in
  let xq := x +! q in
  let zq := z +! q in
    Lane [xq +! (s * 0); xq +! (s * 1); xq +! (s * 2); xq +! (s * 3); xq +! (s * 4); xq +! (s * 5); xq +! (s * 6); xq
    +! (s * 7); xq +! (s * 8); xq +! (s * 9); xq +! (s * 10); xq +! (s * 11); xq +! (s * 12); xq +! (s * 13); xq +! (s
    * 14); xq +! (s * 15)]
              [zq +! (s * 0); zq +! (s * 1); zq +! (s * 2); zq +! (s * 3); zq +! (s * 4); zq +! (s * 5); zq +! (s *
         6); zq +! (s * 7); zq +! (s * 8); zq +! (s * 9); zq +! (s * 10); zq +! (s * 11); zq +! (s * 12); zq +! (s *
         13); zq +! (s * 14); zq +! (s * 15)]
       (dif16_invend16_fn N mode).
Definition dif16_invend16 (mode : smode) (s : nat) (eo : bool) (x y : ptr) : prog C unit :=
  for_step s 2 (fun q => vblock 2 (fun l => dif16_invend16_lane mode s eo x y (q + l))).

(** dif16_invend16_1 : src/otfft_avxdif16.h:1076-1174, the arithmetic of one lane *)
Definition dif16_invend16_1_fn (mode : smode) (v : list C) : list C :=
  match v with
    | [x0_in; x1_in; x2_in; x3_in; x4_in; x5_in; x6_in; x7_in; x8_in; x9_in; xa_in; xb_in; xc_in; xd_in; xe_in; xf_in]
    =>
      let x0 := scalepz 16 mode x0_in in
      let x1 := scalepz 16 mode x1_in in
      let x2 := scalepz 16 mode x2_in in
      let x3 := scalepz 16 mode x3_in in
      let x4 := scalepz 16 mode x4_in in
      let x5 := scalepz 16 mode x5_in in
      let x6 := scalepz 16 mode x6_in in
      let x7 := scalepz 16 mode x7_in in
      let x8 := scalepz 16 mode x8_in in
      let x9 := scalepz 16 mode x9_in in
      let xa := scalepz 16 mode xa_in in
      let xb := scalepz 16 mode xb_in in
      let xc := scalepz 16 mode xc_in in
      let xd := scalepz 16 mode xd_in in
      let xe := scalepz 16 mode xe_in in
      let xf := scalepz 16 mode xf_in in
      let a08 := cadd x0 x8 in
      let s08 := csub x0 x8 in
      let a4c := cadd x4 xc in
      let s4c := csub x4 xc in
      let a2a := cadd x2 xa in
      let s2a := csub x2 xa in
      let a6e := cadd x6 xe in
      let s6e := csub x6 xe in
      let a19 := cadd x1 x9 in
      let s19 := csub x1 x9 in
      let a5d := cadd x5 xd in
      let s5d := csub x5 xd in
      let a3b := cadd x3 xb in
      let s3b := csub x3 xb in
      let a7f := cadd x7 xf in
      let s7f := csub x7 xf in
      let js4c := jx s4c in
      let js6e := jx s6e in
      let js5d := jx s5d in
      let js7f := jx s7f in
      let a08p1a4c := cadd a08 a4c in
      let s08mjs4c := csub s08 js4c in
      let a08m1a4c := csub a08 a4c in
      let s08pjs4c := cadd s08 js4c in
      let a2ap1a6e := cadd a2a a6e in
      let s2amjs6e := csub s2a js6e in
      let a2am1a6e := csub a2a a6e in
      let s2apjs6e := cadd s2a js6e in
      let a19p1a5d := cadd a19 a5d in
      let s19mjs5d := csub s19 js5d in
      let a19m1a5d := csub a19 a5d in
      let s19pjs5d := cadd s19 js5d in
      let a3bp1a7f := cadd a3b a7f in
      let s3bmjs7f := csub s3b js7f in
      let a3bm1a7f := csub a3b a7f in
      let s3bpjs7f := cadd s3b js7f in
      let w8_s2amjs6e := w8x s2amjs6e in
      let j_a2am1a6e := jx a2am1a6e in
      let v8_s2apjs6e := v8x s2apjs6e in
      let a08p1a4c_p1_a2ap1a6e := cadd a08p1a4c a2ap1a6e in
      let s08mjs4c_pw_s2amjs6e := cadd s08mjs4c w8_s2amjs6e in
      let a08m1a4c_mj_a2am1a6e := csub a08m1a4c j_a2am1a6e in
      let s08pjs4c_mv_s2apjs6e := csub s08pjs4c v8_s2apjs6e in
      let a08p1a4c_m1_a2ap1a6e := csub a08p1a4c a2ap1a6e in
      let s08mjs4c_mw_s2amjs6e := csub s08mjs4c w8_s2amjs6e in
      let a08m1a4c_pj_a2am1a6e := cadd a08m1a4c j_a2am1a6e in
      let s08pjs4c_pv_s2apjs6e := cadd s08pjs4c v8_s2apjs6e in
      let w8_s3bmjs7f := w8x s3bmjs7f in
      let j_a3bm1a7f := jx a3bm1a7f in
      let v8_s3bpjs7f := v8x s3bpjs7f in
      let a19p1a5d_p1_a3bp1a7f := cadd a19p1a5d a3bp1a7f in
      let s19mjs5d_pw_s3bmjs7f := cadd s19mjs5d w8_s3bmjs7f in
      let a19m1a5d_mj_a3bm1a7f := csub a19m1a5d j_a3bm1a7f in
      let s19pjs5d_mv_s3bpjs7f := csub s19pjs5d v8_s3bpjs7f in
      let a19p1a5d_m1_a3bp1a7f := csub a19p1a5d a3bp1a7f in
      let s19mjs5d_mw_s3bmjs7f := csub s19mjs5d w8_s3bmjs7f in
      let a19m1a5d_pj_a3bm1a7f := cadd a19m1a5d j_a3bm1a7f in
      let s19pjs5d_pv_s3bpjs7f := cadd s19pjs5d v8_s3bpjs7f in
      let h1_s19mjs5d_pw_s3bmjs7f := h1x s19mjs5d_pw_s3bmjs7f in
      let w8_a19m1a5d_mj_a3bm1a7f := w8x a19m1a5d_mj_a3bm1a7f in
      let h3_s19pjs5d_mv_s3bpjs7f := h3x s19pjs5d_mv_s3bpjs7f in
      let j_a19p1a5d_m1_a3bp1a7f := jx a19p1a5d_m1_a3bp1a7f in
      let hd_s19mjs5d_mw_s3bmjs7f := hdx s19mjs5d_mw_s3bmjs7f in
      let v8_a19m1a5d_pj_a3bm1a7f := v8x a19m1a5d_pj_a3bm1a7f in
      let hf_s19pjs5d_pv_s3bpjs7f := hfx s19pjs5d_pv_s3bpjs7f in
            [cadd a08p1a4c_p1_a2ap1a6e a19p1a5d_p1_a3bp1a7f; cadd s08pjs4c_pv_s2apjs6e hf_s19pjs5d_pv_s3bpjs7f; cadd
        a08m1a4c_pj_a2am1a6e v8_a19m1a5d_pj_a3bm1a7f; cadd s08mjs4c_mw_s2amjs6e hd_s19mjs5d_mw_s3bmjs7f; cadd
        a08p1a4c_m1_a2ap1a6e j_a19p1a5d_m1_a3bp1a7f; csub s08pjs4c_mv_s2apjs6e h3_s19pjs5d_mv_s3bpjs7f; csub
        a08m1a4c_mj_a2am1a6e w8_a19m1a5d_mj_a3bm1a7f; csub s08mjs4c_pw_s2amjs6e h1_s19mjs5d_pw_s3bmjs7f; csub
        a08p1a4c_p1_a2ap1a6e a19p1a5d_p1_a3bp1a7f; csub s08pjs4c_pv_s2apjs6e hf_s19pjs5d_pv_s3bpjs7f; csub
        a08m1a4c_pj_a2am1a6e v8_a19m1a5d_pj_a3bm1a7f; csub s08mjs4c_mw_s2amjs6e hd_s19mjs5d_mw_s3bmjs7f; csub
        a08p1a4c_m1_a2ap1a6e j_a19p1a5d_m1_a3bp1a7f; cadd s08pjs4c_mv_s2apjs6e h3_s19pjs5d_mv_s3bpjs7f; cadd
        a08m1a4c_mj_a2am1a6e w8_a19m1a5d_mj_a3bm1a7f; cadd s08mjs4c_pw_s2amjs6e h1_s19mjs5d_pw_s3bmjs7f]
  | _ => []
  end.
(** dif16_invend16_1 : the addresses of one lane *)
Definition dif16_invend16_1_lane (mode : smode) (eo : bool) (x y : ptr) : lane C :=
  let z := if eo then y else x in
    Lane [x +! 0; x +! 1; x +! 2; x +! 3; x +! 4; x +! 5; x +! 6; x +! 7; x +! 8; x +! 9; x +! 10; x +! 11; x +! 12; x
    +! 13; x +! 14; x +! 15]
              [z +! 0; z +! 1; z +! 2; z +! 3; z +! 4; z +! 5; z +! 6; z +! 7; z +! 8; z +! 9; z +! 10; z +! 11; z +!
         12; z +! 13; z +! 14; z +! 15]
       (dif16_invend16_1_fn mode).
Definition dif16_invend16_1 (mode : smode) (eo : bool) (x y : ptr) : prog C unit :=
  lblock (dif16_invend16_1_lane mode eo x y).

(** dif16o_fwdcore : src/otfft_avxdif16omp.h:23-167, the arithmetic of one lane *)
Definition dif16o_fwdcore_fn (v : list C) : list C :=
  match v with
  | [w1p; x0; x1; x2; x3; x4; x5; x6; x7; x8; x9; xa; xb; xc; xd; xe; xf] =>
      let a08 := cadd x0 x8 in
      let s08 := csub x0 x8 in
      let a4c := cadd x4 xc in
      let s4c := csub x4 xc in
      let a2a := cadd x2 xa in
      let s2a := csub x2 xa in
      let a6e := cadd x6 xe in
      let s6e := csub x6 xe in
      let a19 := cadd x1 x9 in
      let s19 := csub x1 x9 in
      let a5d := cadd x5 xd in
      let s5d := csub x5 xd in
      let a3b := cadd x3 xb in
      let s3b := csub x3 xb in
      let a7f := cadd x7 xf in
      let s7f := csub x7 xf in
      let js4c := jx s4c in
      let js6e := jx s6e in
      let js5d := jx s5d in
      let js7f := jx s7f in
      let a08p1a4c := cadd a08 a4c in
      let s08mjs4c := csub s08 js4c in
      let a08m1a4c := csub a08 a4c in
      let s08pjs4c := cadd s08 js4c in
      let a2ap1a6e := cadd a2a a6e in
      let s2amjs6e := csub s2a js6e in
      let a2am1a6e := csub a2a a6e in
      let s2apjs6e := cadd s2a js6e in
      let a19p1a5d := cadd a19 a5d in
      let s19mjs5d := csub s19 js5d in
      let a19m1a5d := csub a19 a5d in
      let s19pjs5d := cadd s19 js5d in
      let a3bp1a7f := cadd a3b a7f in
      let s3bmjs7f := csub s3b js7f in
      let a3bm1a7f := csub a3b a7f in
      let s3bpjs7f := cadd s3b js7f in
      let w8_s2amjs6e := w8x s2amjs6e in
      let j_a2am1a6e := jx a2am1a6e in
      let v8_s2apjs6e := v8x s2apjs6e in
      let a08p1a4c_p1_a2ap1a6e := cadd a08p1a4c a2ap1a6e in
      let s08mjs4c_pw_s2amjs6e := cadd s08mjs4c w8_s2amjs6e in
      let a08m1a4c_mj_a2am1a6e := csub a08m1a4c j_a2am1a6e in
      let s08pjs4c_mv_s2apjs6e := csub s08pjs4c v8_s2apjs6e in
      let a08p1a4c_m1_a2ap1a6e := csub a08p1a4c a2ap1a6e in
      let s08mjs4c_mw_s2amjs6e := csub s08mjs4c w8_s2amjs6e in
      let a08m1a4c_pj_a2am1a6e := cadd a08m1a4c j_a2am1a6e in
      let s08pjs4c_pv_s2apjs6e := cadd s08pjs4c v8_s2apjs6e in
      let w8_s3bmjs7f := w8x s3bmjs7f in
      let j_a3bm1a7f := jx a3bm1a7f in
      let v8_s3bpjs7f := v8x s3bpjs7f in
      let a19p1a5d_p1_a3bp1a7f := cadd a19p1a5d a3bp1a7f in
      let s19mjs5d_pw_s3bmjs7f := cadd s19mjs5d w8_s3bmjs7f in
      let a19m1a5d_mj_a3bm1a7f := csub a19m1a5d j_a3bm1a7f in
      let s19pjs5d_mv_s3bpjs7f := csub s19pjs5d v8_s3bpjs7f in
      let a19p1a5d_m1_a3bp1a7f := csub a19p1a5d a3bp1a7f in
      let s19mjs5d_mw_s3bmjs7f := csub s19mjs5d w8_s3bmjs7f in
      let a19m1a5d_pj_a3bm1a7f := cadd a19m1a5d j_a3bm1a7f in
      let s19pjs5d_pv_s3bpjs7f := cadd s19pjs5d v8_s3bpjs7f in
      let h1_s19mjs5d_pw_s3bmjs7f := h1x s19mjs5d_pw_s3bmjs7f in
      let w8_a19m1a5d_mj_a3bm1a7f := w8x a19m1a5d_mj_a3bm1a7f in
      let h3_s19pjs5d_mv_s3bpjs7f := h3x s19pjs5d_mv_s3bpjs7f in
      let j_a19p1a5d_m1_a3bp1a7f := jx a19p1a5d_m1_a3bp1a7f in
      let hd_s19mjs5d_mw_s3bmjs7f := hdx s19mjs5d_mw_s3bmjs7f in
      let v8_a19m1a5d_pj_a3bm1a7f := v8x a19m1a5d_pj_a3bm1a7f in
      let hf_s19pjs5d_pv_s3bpjs7f := hfx s19pjs5d_pv_s3bpjs7f in
      let w2p := cmul w1p w1p in
      let w3p := cmul w1p w2p in
      let w4p := cmul w2p w2p in
      let w5p := cmul w2p w3p in
      let w6p := cmul w3p w3p in
      let w7p := cmul w3p w4p in
      let w8p := cmul w4p w4p in
      let w9p := cmul w4p w5p in
      let wap := cmul w5p w5p in
      let wbp := cmul w5p w6p in
      let wcp := cmul w6p w6p in
      let wdp := cmul w6p w7p in
      let wep := cmul w7p w7p in
      let wfp := cmul w7p w8p in
            [cadd a08p1a4c_p1_a2ap1a6e a19p1a5d_p1_a3bp1a7f; cmul w1p (cadd s08mjs4c_pw_s2amjs6e
        h1_s19mjs5d_pw_s3bmjs7f); cmul w2p (cadd a08m1a4c_mj_a2am1a6e w8_a19m1a5d_mj_a3bm1a7f); cmul w3p (cadd
        s08pjs4c_mv_s2apjs6e h3_s19pjs5d_mv_s3bpjs7f); cmul w4p (csub a08p1a4c_m1_a2ap1a6e j_a19p1a5d_m1_a3bp1a7f);
        cmul w5p (csub s08mjs4c_mw_s2amjs6e hd_s19mjs5d_mw_s3bmjs7f); cmul w6p (csub a08m1a4c_pj_a2am1a6e
        v8_a19m1a5d_pj_a3bm1a7f); cmul w7p (csub s08pjs4c_pv_s2apjs6e hf_s19pjs5d_pv_s3bpjs7f); cmul w8p (csub
        a08p1a4c_p1_a2ap1a6e a19p1a5d_p1_a3bp1a7f); cmul w9p (csub s08mjs4c_pw_s2amjs6e h1_s19mjs5d_pw_s3bmjs7f); cmul
        wap (csub a08m1a4c_mj_a2am1a6e w8_a19m1a5d_mj_a3bm1a7f); cmul wbp (csub s08pjs4c_mv_s2apjs6e
        h3_s19pjs5d_mv_s3bpjs7f); cmul wcp (cadd a08p1a4c_m1_a2ap1a6e j_a19p1a5d_m1_a3bp1a7f); cmul wdp (cadd
        s08mjs4c_mw_s2amjs6e hd_s19mjs5d_mw_s3bmjs7f); cmul wep (cadd a08m1a4c_pj_a2am1a6e v8_a19m1a5d_pj_a3bm1a7f);
        cmul wfp (cadd s08pjs4c_pv_s2apjs6e hf_s19pjs5d_pv_s3bpjs7f)]
  | _ => []
  end.
(** dif16o_fwdcore : the addresses of one lane *)
Definition dif16o_fwdcore_lane (n s : nat) (x y W : ptr) (p q : nat) : lane C :=
  let N := n * s in
  let N0 := 0 in
  let N1 := N / 16 in
  let N2 := N1 * 2 in
  let N3 := N1 * 3 in
  let N4 := N1 * 4 in
  let N5 := N1 * 5 in
  let N6 := N1 * 6 in
  let N7 := N1 * 7 in
  let N8 := N1 * 8 in
  let N9 := N1 * 9 in
  let Na := N1 * 10 in
  let Nb := N1 * 11 in
  let Nc := N1 * 12 in
  let Nd := N1 * 13 in
  let Ne := N1 * 14 in
  let Nf := N1 * 15 in
  let sp := s * p in
  let s16p := 16 * sp in
  let xq_sp := x +! (q + sp) in
  let yq_s16p := y +! (q + s16p) in
    Lane [W +! sp; xq_sp +! N0; xq_sp +! N1; xq_sp +! N2; xq_sp +! N3; xq_sp +! N4; xq_sp +! N5; xq_sp +! N6; xq_sp +!
    N7; xq_sp +! N8; xq_sp +! N9; xq_sp +! Na; xq_sp +! Nb; xq_sp +! Nc; xq_sp +! Nd; xq_sp +! Ne; xq_sp +! Nf]
              [yq_s16p +! (s * 0); yq_s16p +! (s * 1); yq_s16p +! (s * 2); yq_s16p +! (s * 3); yq_s16p +! (s * 4);
         yq_s16p +! (s * 5); yq_s16p +! (s * 6); yq_s16p +! (s * 7); yq_s16p +! (s * 8); yq_s16p +! (s * 9); yq_s16p
         +! (s * 10); yq_s16p +! (s * 11); yq_s16p +! (s * 12); yq_s16p +! (s * 13); yq_s16p +! (s * 14); yq_s16p +!
         (s * 15)]
       (dif16o_fwdcore_fn).
Definition dif16o_fwdcore (n s : nat) (x y W : ptr) : list (phase (V:=C)) :=
  let N := n * s in
  let N1 := N / 16 in
  let Ni := N1 / 4 in
  let h := s / 4 in
  [(Ni, fun i => vblock 4 (fun l => dif16o_fwdcore_lane n s x y W (i / h) ((i mod h) * 4 + l)))].

(** dif16o_fwdcore1 : src/otfft_avxdif16omp.h:169-358, the arithmetic of one lane *)
Definition dif16o_fwdcore1_fn (v : list C) : list C :=
  match v with
  | [w1p; x0; x1; x2; x3; x4; x5; x6; x7; x8; x9; xa; xb; xc; xd; xe; xf] =>
      let a08 := cadd x0 x8 in
      let s08 := csub x0 x8 in
      let a4c := cadd x4 xc in
      let s4c := csub x4 xc in
      let a2a := cadd x2 xa in
      let s2a := csub x2 xa in
      let a6e := cadd x6 xe in
      let s6e := csub x6 xe in
      let a19 := cadd x1 x9 in
      let s19 := csub x1 x9 in
      let a5d := cadd x5 xd in
      let s5d := csub x5 xd in
      let a3b := cadd x3 xb in
      let s3b := csub x3 xb in
      let a7f := cadd x7 xf in
      let s7f := csub x7 xf in
      let js4c := jx s4c in
      let js6e := jx s6e in
      let js5d := jx s5d in
      let js7f := jx s7f in
      let a08p1a4c := cadd a08 a4c in
      let s08mjs4c := csub s08 js4c in
      let a08m1a4c := csub a08 a4c in
      let s08pjs4c := cadd s08 js4c in
      let a2ap1a6e := cadd a2a a6e in
      let s2amjs6e := csub s2a js6e in
      let a2am1a6e := csub a2a a6e in
      let s2apjs6e := cadd s2a js6e in
      let a19p1a5d := cadd a19 a5d in
      let s19mjs5d := csub s19 js5d in
      let a19m1a5d := csub a19 a5d in
      let s19pjs5d := cadd s19 js5d in
      let a3bp1a7f := cadd a3b a7f in
      let s3bmjs7f := csub s3b js7f in
      let a3bm1a7f := csub a3b a7f in
      let s3bpjs7f := cadd s3b js7f in
      let w8_s2amjs6e := w8x s2amjs6e in
      let j_a2am1a6e := jx a2am1a6e in
      let v8_s2apjs6e := v8x s2apjs6e in
      let a08p1a4c_p1_a2ap1a6e := cadd a08p1a4c a2ap1a6e in
      let s08mjs4c_pw_s2amjs6e := cadd s08mjs4c w8_s2amjs6e in
      let a08m1a4c_mj_a2am1a6e := csub a08m1a4c j_a2am1a6e in
      let s08pjs4c_mv_s2apjs6e := csub s08pjs4c v8_s2apjs6e in
      let a08p1a4c_m1_a2ap1a6e := csub a08p1a4c a2ap1a6e in
      let s08mjs4c_mw_s2amjs6e := csub s08mjs4c w8_s2amjs6e in
      let a08m1a4c_pj_a2am1a6e := cadd a08m1a4c j_a2am1a6e in
      let s08pjs4c_pv_s2apjs6e := cadd s08pjs4c v8_s2apjs6e in
      let w8_s3bmjs7f := w8x s3bmjs7f in
      let j_a3bm1a7f := jx a3bm1a7f in
      let v8_s3bpjs7f := v8x s3bpjs7f in
      let a19p1a5d_p1_a3bp1a7f := cadd a19p1a5d a3bp1a7f in
      let s19mjs5d_pw_s3bmjs7f := cadd s19mjs5d w8_s3bmjs7f in
      let a19m1a5d_mj_a3bm1a7f := csub a19m1a5d j_a3bm1a7f in
      let s19pjs5d_mv_s3bpjs7f := csub s19pjs5d v8_s3bpjs7f in
      let a19p1a5d_m1_a3bp1a7f := csub a19p1a5d a3bp1a7f in
      let s19mjs5d_mw_s3bmjs7f := csub s19mjs5d w8_s3bmjs7f in
      let a19m1a5d_pj_a3bm1a7f := cadd a19m1a5d j_a3bm1a7f in
      let s19pjs5d_pv_s3bpjs7f := cadd s19pjs5d v8_s3bpjs7f in
      let h1_s19mjs5d_pw_s3bmjs7f := h1x s19mjs5d_pw_s3bmjs7f in
      let w8_a19m1a5d_mj_a3bm1a7f := w8x a19m1a5d_mj_a3bm1a7f in
      let h3_s19pjs5d_mv_s3bpjs7f := h3x s19pjs5d_mv_s3bpjs7f in
      let j_a19p1a5d_m1_a3bp1a7f := jx a19p1a5d_m1_a3bp1a7f in
      let hd_s19mjs5d_mw_s3bmjs7f := hdx s19mjs5d_mw_s3bmjs7f in
      let v8_a19m1a5d_pj_a3bm1a7f := v8x a19m1a5d_pj_a3bm1a7f in
      let hf_s19pjs5d_pv_s3bpjs7f := hfx s19pjs5d_pv_s3bpjs7f in
      let w2p := cmul w1p w1p in
      let w3p := cmul w1p w2p in
      let w4p := cmul w2p w2p in
      let w5p := cmul w2p w3p in
      let w6p := cmul w3p w3p in
      let w7p := cmul w3p w4p in
      let w8p := cmul w4p w4p in
      let w9p := cmul w4p w5p in
      let wap := cmul w5p w5p in
      let wbp := cmul w5p w6p in
      let wcp := cmul w6p w6p in
      let wdp := cmul w6p w7p in
      let wep := cmul w7p w7p in
      let wfp := cmul w7p w8p in
      let aA := cadd a08p1a4c_p1_a2ap1a6e a19p1a5d_p1_a3bp1a7f in
      let bB := cmul w1p (cadd s08mjs4c_pw_s2amjs6e h1_s19mjs5d_pw_s3bmjs7f) in
      let cC := cmul w2p (cadd a08m1a4c_mj_a2am1a6e w8_a19m1a5d_mj_a3bm1a7f) in
      let dD := cmul w3p (cadd s08pjs4c_mv_s2apjs6e h3_s19pjs5d_mv_s3bpjs7f) in
      let eE := cmul w4p (csub a08p1a4c_m1_a2ap1a6e j_a19p1a5d_m1_a3bp1a7f) in
      let fF := cmul w5p (csub s08mjs4c_mw_s2amjs6e hd_s19mjs5d_mw_s3bmjs7f) in
      let gG := cmul w6p (csub a08m1a4c_pj_a2am1a6e v8_a19m1a5d_pj_a3bm1a7f) in
      let hH := cmul w7p (csub s08pjs4c_pv_s2apjs6e hf_s19pjs5d_pv_s3bpjs7f) in
      let iI := cmul w8p (csub a08p1a4c_p1_a2ap1a6e a19p1a5d_p1_a3bp1a7f) in
      let jJ := cmul w9p (csub s08mjs4c_pw_s2amjs6e h1_s19mjs5d_pw_s3bmjs7f) in
      let kK := cmul wap (csub a08m1a4c_mj_a2am1a6e w8_a19m1a5d_mj_a3bm1a7f) in
      let lL := cmul wbp (csub s08pjs4c_mv_s2apjs6e h3_s19pjs5d_mv_s3bpjs7f) in
      let mM := cmul wcp (cadd a08p1a4c_m1_a2ap1a6e j_a19p1a5d_m1_a3bp1a7f) in
      let nN := cmul wdp (cadd s08mjs4c_mw_s2amjs6e hd_s19mjs5d_mw_s3bmjs7f) in
      let oO := cmul wep (cadd a08m1a4c_pj_a2am1a6e v8_a19m1a5d_pj_a3bm1a7f) in
      let pP := cmul wfp (cadd s08pjs4c_pv_s2apjs6e hf_s19pjs5d_pv_s3bpjs7f) in
      [aA; bB; cC; dD; eE; fF; gG; hH; iI; jJ; kK; lL; mM; nN; oO; pP]
  | _ => []
  end.
(** dif16o_fwdcore1 : the addresses of one lane *)
Definition dif16o_fwdcore1_lane (N : nat) (x y W : ptr) (p : nat) : lane C :=
  let N0 := 0 in
  let N1 := N / 16 in
  let N2 := N1 * 2 in
  let N3 := N1 * 3 in
  let N4 := N1 * 4 in
  let N5 := N1 * 5 in
  let N6 := N1 * 6 in
  let N7 := N1 * 7 in
  let N8 := N1 * 8 in
  let N9 := N1 * 9 in
  let Na := N1 * 10 in
  let Nb := N1 * 11 in
  let Nc := N1 * 12 in
  let Nd := N1 * 13 in
  let Ne := N1 * 14 in
  let Nf := N1 * 15 in
  let x_p := x +! p in
  let y_16p := y +! (16 * p) in
    Lane [W +! p; x_p +! N0; x_p +! N1; x_p +! N2; x_p +! N3; x_p +! N4; x_p +! N5; x_p +! N6; x_p +! N7; x_p +! N8;
    x_p +! N9; x_p +! Na; x_p +! Nb; x_p +! Nc; x_p +! Nd; x_p +! Ne; x_p +! Nf]
              [y_16p +! 0; y_16p +! (0 + 1); y_16p +! 2; y_16p +! (2 + 1); y_16p +! 4; y_16p +! (4 + 1); y_16p +! 6;
         y_16p +! (6 + 1); y_16p +! 8; y_16p +! (8 + 1); y_16p +! 10; y_16p +! (10 + 1); y_16p +! 12; y_16p +! (12 +
         1); y_16p +! 14; y_16p +! (14 + 1)]
       (dif16o_fwdcore1_fn).
Definition dif16o_fwdcore1 (N : nat) (x y W : ptr) : list (phase (V:=C)) :=
  let N1 := N / 16 in
  [par_step N1 2 (fun p => vblock 2 (fun l => dif16o_fwdcore1_lane N x y W (p + l)))].

(** dif16o_fwdend16 : src/otfft_avxdif16omp.h:366-471, the arithmetic of one lane *)
Definition dif16o_fwdend16_fn (N : nat) (mode : smode) (v : list C) : list C :=
  match v with
    | [x0_in; x1_in; x2_in; x3_in; x4_in; x5_in; x6_in; x7_in; x8_in; x9_in; xa_in; xb_in; xc_in; xd_in; xe_in; xf_in]
    =>
      let x0 := scalepz N mode x0_in in
      let x1 := scalepz N mode x1_in in
      let x2 := scalepz N mode x2_in in
      let x3 := scalepz N mode x3_in in
      let x4 := scalepz N mode x4_in in
      let x5 := scalepz N mode x5_in in
      let x6 := scalepz N mode x6_in in
      let x7 := scalepz N mode x7_in in
      let x8 := scalepz N mode x8_in in
      let x9 := scalepz N mode x9_in in
      let xa := scalepz N mode xa_in in
      let xb := scalepz N mode xb_in in
      let xc := scalepz N mode xc_in in
      let xd := scalepz N mode xd_in in
      let xe := scalepz N mode xe_in in
      let xf := scalepz N mode xf_in in
      let a08 := cadd x0 x8 in
      let s08 := csub x0 x8 in
      let a4c := cadd x4 xc in
      let s4c := csub x4 xc in
      let a2a := cadd x2 xa in
      let s2a := csub x2 xa in
      let a6e := cadd x6 xe in
      let s6e := csub x6 xe in
      let a19 := cadd x1 x9 in
      let s19 := csub x1 x9 in
      let a5d := cadd x5 xd in
      let s5d := csub x5 xd in
      let a3b := cadd x3 xb in
      let s3b := csub x3 xb in
      let a7f := cadd x7 xf in
      let s7f := csub x7 xf in
      let js4c := jx s4c in
      let js6e := jx s6e in
      let js5d := jx s5d in
      let js7f := jx s7f in
      let a08p1a4c := cadd a08 a4c in
      let s08mjs4c := csub s08 js4c in
      let a08m1a4c := csub a08 a4c in
      let s08pjs4c := cadd s08 js4c in
      let a2ap1a6e := cadd a2a a6e in
      let s2amjs6e := csub s2a js6e in
      let a2am1a6e := csub a2a a6e in
      let s2apjs6e := cadd s2a js6e in
      let a19p1a5d := cadd a19 a5d in
      let s19mjs5d := csub s19 js5d in
      let a19m1a5d := csub a19 a5d in
      let s19pjs5d := cadd s19 js5d in
      let a3bp1a7f := cadd a3b a7f in
      let s3bmjs7f := csub s3b js7f in
      let a3bm1a7f := csub a3b a7f in
      let s3bpjs7f := cadd s3b js7f in
      let w8_s2amjs6e := w8x s2amjs6e in
      let j_a2am1a6e := jx a2am1a6e in
      let v8_s2apjs6e := v8x s2apjs6e in
      let a08p1a4c_p1_a2ap1a6e := cadd a08p1a4c a2ap1a6e in
      let s08mjs4c_pw_s2amjs6e := cadd s08mjs4c w8_s2amjs6e in
      let a08m1a4c_mj_a2am1a6e := csub a08m1a4c j_a2am1a6e in
      let s08pjs4c_mv_s2apjs6e := csub s08pjs4c v8_s2apjs6e in
      let a08p1a4c_m1_a2ap1a6e := csub a08p1a4c a2ap1a6e in
      let s08mjs4c_mw_s2amjs6e := csub s08mjs4c w8_s2amjs6e in
      let a08m1a4c_pj_a2am1a6e := cadd a08m1a4c j_a2am1a6e in
      let s08pjs4c_pv_s2apjs6e := cadd s08pjs4c v8_s2apjs6e in
      let w8_s3bmjs7f := w8x s3bmjs7f in
      let j_a3bm1a7f := jx a3bm1a7f in
      let v8_s3bpjs7f := v8x s3bpjs7f in
      let a19p1a5d_p1_a3bp1a7f := cadd a19p1a5d a3bp1a7f in
      let s19mjs5d_pw_s3bmjs7f := cadd s19mjs5d w8_s3bmjs7f in
      let a19m1a5d_mj_a3bm1a7f := csub a19m1a5d j_a3bm1a7f in
      let s19pjs5d_mv_s3bpjs7f := csub s19pjs5d v8_s3bpjs7f in
      let a19p1a5d_m1_a3bp1a7f := csub a19p1a5d a3bp1a7f in
      let s19mjs5d_mw_s3bmjs7f := csub s19mjs5d w8_s3bmjs7f in
      let a19m1a5d_pj_a3bm1a7f := cadd a19m1a5d j_a3bm1a7f in
      let s19pjs5d_pv_s3bpjs7f := cadd s19pjs5d v8_s3bpjs7f in
      let h1_s19mjs5d_pw_s3bmjs7f := h1x s19mjs5d_pw_s3bmjs7f in
      let w8_a19m1a5d_mj_a3bm1a7f := w8x a19m1a5d_mj_a3bm1a7f in
      let h3_s19pjs5d_mv_s3bpjs7f := h3x s19pjs5d_mv_s3bpjs7f in
      let j_a19p1a5d_m1_a3bp1a7f := jx a19p1a5d_m1_a3bp1a7f in
      let hd_s19mjs5d_mw_s3bmjs7f := hdx s19mjs5d_mw_s3bmjs7f in
      let v8_a19m1a5d_pj_a3bm1a7f := v8x a19m1a5d_pj_a3bm1a7f in
      let hf_s19pjs5d_pv_s3bpjs7f := hfx s19pjs5d_pv_s3bpjs7f in
            [cadd a08p1a4c_p1_a2ap1a6e a19p1a5d_p1_a3bp1a7f; cadd s08mjs4c_pw_s2amjs6e h1_s19mjs5d_pw_s3bmjs7f; cadd
        a08m1a4c_mj_a2am1a6e w8_a19m1a5d_mj_a3bm1a7f; cadd s08pjs4c_mv_s2apjs6e h3_s19pjs5d_mv_s3bpjs7f; csub
        a08p1a4c_m1_a2ap1a6e j_a19p1a5d_m1_a3bp1a7f; csub s08mjs4c_mw_s2amjs6e hd_s19mjs5d_mw_s3bmjs7f; csub
        a08m1a4c_pj_a2am1a6e v8_a19m1a5d_pj_a3bm1a7f; csub s08pjs4c_pv_s2apjs6e hf_s19pjs5d_pv_s3bpjs7f; csub
        a08p1a4c_p1_a2ap1a6e a19p1a5d_p1_a3bp1a7f; csub s08mjs4c_pw_s2amjs6e h1_s19mjs5d_pw_s3bmjs7f; csub
        a08m1a4c_mj_a2am1a6e w8_a19m1a5d_mj_a3bm1a7f; csub s08pjs4c_mv_s2apjs6e h3_s19pjs5d_mv_s3bpjs7f; cadd
        a08p1a4c_m1_a2ap1a6e j_a19p1a5d_m1_a3bp1a7f; cadd s08mjs4c_mw_s2amjs6e hd_s19mjs5d_mw_s3bmjs7f; cadd
        a08m1a4c_pj_a2am1a6e v8_a19m1a5d_pj_a3bm1a7f; cadd s08pjs4c_pv_s2apjs6e hf_s19pjs5d_pv_s3bpjs7f]
  | _ => []
  end.
(** dif16o_fwdend16 : the addresses of one lane *)
Definition dif16o_fwdend16_lane (mode : smode) (s : nat) (eo : bool) (x y : ptr) (q : nat) : lane C :=
  let N := 16 * s in
  let z := if eo then y else x in
  let xq := x +! q in
  let zq := z +! q in
    Lane [xq +! (s * 0); xq +! (s * 1); xq +! (s * 2); xq +! (s * 3); xq +! (s * 4); xq +! (s * 5); xq +! (s * 6); xq
    +! (s * 7); xq +! (s * 8); xq +! (s * 9); xq +! (s * 10); xq +! (s * 11); xq +! (s * 12); xq +! (s * 13); xq +! (s
    * 14); xq +! (s * 15)]
              [zq +! (s * 0); zq +! (s * 1); zq +! (s * 2); zq +! (s * 3); zq +! (s * 4); zq +! (s * 5); zq +! (s *
         6); zq +! (s * 7); zq +! (s * 8); zq +! (s * 9); zq +! (s * 10); zq +! (s * 11); zq +! (s * 12); zq +! (s *
         13); zq +! (s * 14); zq +! (s * 15)]
       (dif16o_fwdend16_fn N mode).
Definition dif16o_fwdend16 (mode : smode) (s : nat) (eo : bool) (x y : ptr) : list (phase (V:=C)) :=
  [par_step s 2 (fun q => vblock 2 (fun l => dif16o_fwdend16_lane mode s eo x y (q + l)))].

(** dif16o_fwdend16_1 : src/otfft_avxdif16omp.h:473-574, the arithmetic of one lane *)
Definition dif16o_fwdend16_1_fn (mode : smode) (v : list C) : list C :=
  match v with
    | [x0_in; x1_in; x2_in; x3_in; x4_in; x5_in; x6_in; x7_in; x8_in; x9_in; xa_in; xb_in; xc_in; xd_in; xe_in; xf_in]
    =>
      let x0 := scalepz 16 mode x0_in in
      let x1 := scalepz 16 mode x1_in in
      let x2 := scalepz 16 mode x2_in in
      let x3 := scalepz 16 mode x3_in in
      let x4 := scalepz 16 mode x4_in in
      let x5 := scalepz 16 mode x5_in in
      let x6 := scalepz 16 mode x6_in in
      let x7 := scalepz 16 mode x7_in in
      let x8 := scalepz 16 mode x8_in in
      let x9 := scalepz 16 mode x9_in in
      let xa := scalepz 16 mode xa_in in
      let xb := scalepz 16 mode xb_in in
      let xc := scalepz 16 mode xc_in in
      let xd := scalepz 16 mode xd_in in
      let xe := scalepz 16 mode xe_in in
      let xf := scalepz 16 mode xf_in in
      let a08 := cadd x0 x8 in
      let s08 := csub x0 x8 in
      let a4c := cadd x4 xc in
      let s4c := csub x4 xc in
      let a2a := cadd x2 xa in
      let s2a := csub x2 xa in
      let a6e := cadd x6 xe in
      let s6e := csub x6 xe in
      let a19 := cadd x1 x9 in
      let s19 := csub x1 x9 in
      let a5d := cadd x5 xd in
      let s5d := csub x5 xd in
      let a3b := cadd x3 xb in
      let s3b := csub x3 xb in
      let a7f := cadd x7 xf in
      let s7f := csub x7 xf in
      let js4c := jx s4c in
      let js6e := jx s6e in
      let js5d := jx s5d in
      let js7f := jx s7f in
      let a08p1a4c := cadd a08 a4c in
      let s08mjs4c := csub s08 js4c in
      let a08m1a4c := csub a08 a4c in
      let s08pjs4c := cadd s08 js4c in
      let a2ap1a6e := cadd a2a a6e in
      let s2amjs6e := csub s2a js6e in
      let a2am1a6e := csub a2a a6e in
      let s2apjs6e := cadd s2a js6e in
      let a19p1a5d := cadd a19 a5d in
      let s19mjs5d := csub s19 js5d in
      let a19m1a5d := csub a19 a5d in
      let s19pjs5d := cadd s19 js5d in
      let a3bp1a7f := cadd a3b a7f in
      let s3bmjs7f := csub s3b js7f in
      let a3bm1a7f := csub a3b a7f in
      let s3bpjs7f := cadd s3b js7f in
      let w8_s2amjs6e := w8x s2amjs6e in
      let j_a2am1a6e := jx a2am1a6e in
      let v8_s2apjs6e := v8x s2apjs6e in
      let a08p1a4c_p1_a2ap1a6e := cadd a08p1a4c a2ap1a6e in
      let s08mjs4c_pw_s2amjs6e := cadd s08mjs4c w8_s2amjs6e in
      let a08m1a4c_mj_a2am1a6e := csub a08m1a4c j_a2am1a6e in
      let s08pjs4c_mv_s2apjs6e := csub s08pjs4c v8_s2apjs6e in
      let a08p1a4c_m1_a2ap1a6e := csub a08p1a4c a2ap1a6e in
      let s08mjs4c_mw_s2amjs6e := csub s08mjs4c w8_s2amjs6e in
      let a08m1a4c_pj_a2am1a6e := cadd a08m1a4c j_a2am1a6e in
      let s08pjs4c_pv_s2apjs6e := cadd s08pjs4c v8_s2apjs6e in
      let w8_s3bmjs7f := w8x s3bmjs7f in
      let j_a3bm1a7f := jx a3bm1a7f in
      let v8_s3bpjs7f := v8x s3bpjs7f in
      let a19p1a5d_p1_a3bp1a7f := cadd a19p1a5d a3bp1a7f in
      let s19mjs5d_pw_s3bmjs7f := cadd s19mjs5d w8_s3bmjs7f in
      let a19m1a5d_mj_a3bm1a7f := csub a19m1a5d j_a3bm1a7f in
      let s19pjs5d_mv_s3bpjs7f := csub s19pjs5d v8_s3bpjs7f in
      let a19p1a5d_m1_a3bp1a7f := csub a19p1a5d a3bp1a7f in
      let s19mjs5d_mw_s3bmjs7f := csub s19mjs5d w8_s3bmjs7f in
      let a19m1a5d_pj_a3bm1a7f := cadd a19m1a5d j_a3bm1a7f in
      let s19pjs5d_pv_s3bpjs7f := cadd s19pjs5d v8_s3bpjs7f in
      let h1_s19mjs5d_pw_s3bmjs7f := h1x s19mjs5d_pw_s3bmjs7f in
      let w8_a19m1a5d_mj_a3bm1a7f := w8x a19m1a5d_mj_a3bm1a7f in
      let h3_s19pjs5d_mv_s3bpjs7f := h3x s19pjs5d_mv_s3bpjs7f in
      let j_a19p1a5d_m1_a3bp1a7f := jx a19p1a5d_m1_a3bp1a7f in
      let hd_s19mjs5d_mw_s3bmjs7f := hdx s19mjs5d_mw_s3bmjs7f in
      let v8_a19m1a5d_pj_a3bm1a7f := v8x a19m1a5d_pj_a3bm1a7f in
      let hf_s19pjs5d_pv_s3bpjs7f := hfx s19pjs5d_pv_s3bpjs7f in
            [cadd a08p1a4c_p1_a2ap1a6e a19p1a5d_p1_a3bp1a7f; cadd s08mjs4c_pw_s2amjs6e h1_s19mjs5d_pw_s3bmjs7f; cadd
        a08m1a4c_mj_a2am1a6e w8_a19m1a5d_mj_a3bm1a7f; cadd s08pjs4c_mv_s2apjs6e h3_s19pjs5d_mv_s3bpjs7f; csub
        a08p1a4c_m1_a2ap1a6e j_a19p1a5d_m1_a3bp1a7f; csub s08mjs4c_mw_s2amjs6e hd_s19mjs5d_mw_s3bmjs7f; csub
        a08m1a4c_pj_a2am1a6e v8_a19m1a5d_pj_a3bm1a7f; csub s08pjs4c_pv_s2apjs6e hf_s19pjs5d_pv_s3bpjs7f; csub
        a08p1a4c_p1_a2ap1a6e a19p1a5d_p1_a3bp1a7f; csub s08mjs4c_pw_s2amjs6e h1_s19mjs5d_pw_s3bmjs7f; csub
        a08m1a4c_mj_a2am1a6e w8_a19m1a5d_mj_a3bm1a7f; csub s08pjs4c_mv_s2apjs6e h3_s19pjs5d_mv_s3bpjs7f; cadd
        a08p1a4c_m1_a2ap1a6e j_a19p1a5d_m1_a3bp1a7f; cadd s08mjs4c_mw_s2amjs6e hd_s19mjs5d_mw_s3bmjs7f; cadd
        a08m1a4c_pj_a2am1a6e v8_a19m1a5d_pj_a3bm1a7f; cadd s08pjs4c_pv_s2apjs6e hf_s19pjs5d_pv_s3bpjs7f]
  | _ => []
  end.
(** dif16o_fwdend16_1 : the addresses of one lane *)
Definition dif16o_fwdend16_1_lane (mode : smode) (eo : bool) (x y : ptr) : lane C :=
  let z := if eo then y else x in
    Lane [x +! 0; x +! 1; x +! 2; x +! 3; x +! 4; x +! 5; x +! 6; x +! 7; x +! 8; x +! 9; x +! 10; x +! 11; x +! 12; x
    +! 13; x +! 14; x +! 15]
              [z +! 0; z +! 1; z +! 2; z +! 3; z +! 4; z +! 5; z +! 6; z +! 7; z +! 8; z +! 9; z +! 10; z +! 11; z +!
         12; z +! 13; z +! 14; z +! 15]
       (dif16o_fwdend16_1_fn mode).
Definition dif16o_fwdend16_1 (mode : smode) (eo : bool) (x y : ptr) : list (phase (V:=C)) :=
  [single (lblock (dif16o_fwdend16_1_lane mode eo x y))].

(** dif16o_invcore : src/otfft_avxdif16omp.h:630-774, the arithmetic of one lane *)
Definition dif16o_invcore_fn (v : list C) : list C :=
  match v with
  | [w1p_in; x0; x1; x2; x3; x4; x5; x6; x7; x8; x9; xa; xb; xc; xd; xe; xf] =>
      let w1p := cconj w1p_in in
      let a08 := cadd x0 x8 in
      let s08 := csub x0 x8 in
      let a4c := cadd x4 xc in
      let s4c := csub x4 xc in
      let a2a := cadd x2 xa in
      let s2a := csub x2 xa in
      let a6e := cadd x6 xe in
      let s6e := csub x6 xe in
      let a19 := cadd x1 x9 in
      let s19 := csub x1 x9 in
      let a5d := cadd x5 xd in
      let s5d := csub x5 xd in
      let a3b := cadd x3 xb in
      let s3b := csub x3 xb in
      let a7f := cadd x7 xf in
      let s7f := csub x7 xf in
      let js4c := jx s4c in
      let js6e := jx s6e in
      let js5d := jx s5d in
      let js7f := jx s7f in
      let a08p1a4c := cadd a08 a4c in
      let s08mjs4c := csub s08 js4c in
      let a08m1a4c := csub a08 a4c in
      let s08pjs4c := cadd s08 js4c in
      let a2ap1a6e := cadd a2a a6e in
      let s2amjs6e := csub s2a js6e in
      let a2am1a6e := csub a2a a6e in
      let s2apjs6e := cadd s2a js6e in
      let a19p1a5d := cadd a19 a5d in
      let s19mjs5d := csub s19 js5d in
      let a19m1a5d := csub a19 a5d in
      let s19pjs5d := cadd s19 js5d in
      let a3bp1a7f := cadd a3b a7f in
      let s3bmjs7f := csub s3b js7f in
      let a3bm1a7f := csub a3b a7f in
      let s3bpjs7f := cadd s3b js7f in
      let w8_s2amjs6e := w8x s2amjs6e in
      let j_a2am1a6e := jx a2am1a6e in
      let v8_s2apjs6e := v8x s2apjs6e in
      let a08p1a4c_p1_a2ap1a6e := cadd a08p1a4c a2ap1a6e in
      let s08mjs4c_pw_s2amjs6e := cadd s08mjs4c w8_s2amjs6e in
      let a08m1a4c_mj_a2am1a6e := csub a08m1a4c j_a2am1a6e in
      let s08pjs4c_mv_s2apjs6e := csub s08pjs4c v8_s2apjs6e in
      let a08p1a4c_m1_a2ap1a6e := csub a08p1a4c a2ap1a6e in
      let s08mjs4c_mw_s2amjs6e := csub s08mjs4c w8_s2amjs6e in
      let a08m1a4c_pj_a2am1a6e := cadd a08m1a4c j_a2am1a6e in
      let s08pjs4c_pv_s2apjs6e := cadd s08pjs4c v8_s2apjs6e in
      let w8_s3bmjs7f := w8x s3bmjs7f in
      let j_a3bm1a7f := jx a3bm1a7f in
      let v8_s3bpjs7f := v8x s3bpjs7f in
      let a19p1a5d_p1_a3bp1a7f := cadd a19p1a5d a3bp1a7f in
      let s19mjs5d_pw_s3bmjs7f := cadd s19mjs5d w8_s3bmjs7f in
      let a19m1a5d_mj_a3bm1a7f := csub a19m1a5d j_a3bm1a7f in
      let s19pjs5d_mv_s3bpjs7f := csub s19pjs5d v8_s3bpjs7f in
      let a19p1a5d_m1_a3bp1a7f := csub a19p1a5d a3bp1a7f in
      let s19mjs5d_mw_s3bmjs7f := csub s19mjs5d w8_s3bmjs7f in
      let a19m1a5d_pj_a3bm1a7f := cadd a19m1a5d j_a3bm1a7f in
      let s19pjs5d_pv_s3bpjs7f := cadd s19pjs5d v8_s3bpjs7f in
      let h1_s19mjs5d_pw_s3bmjs7f := h1x s19mjs5d_pw_s3bmjs7f in
      let w8_a19m1a5d_mj_a3bm1a7f := w8x a19m1a5d_mj_a3bm1a7f in
      let h3_s19pjs5d_mv_s3bpjs7f := h3x s19pjs5d_mv_s3bpjs7f in
      let j_a19p1a5d_m1_a3bp1a7f := jx a19p1a5d_m1_a3bp1a7f in
      let hd_s19mjs5d_mw_s3bmjs7f := hdx s19mjs5d_mw_s3bmjs7f in
      let v8_a19m1a5d_pj_a3bm1a7f := v8x a19m1a5d_pj_a3bm1a7f in
      let hf_s19pjs5d_pv_s3bpjs7f := hfx s19pjs5d_pv_s3bpjs7f in
      let w2p := cmul w1p w1p in
      let w3p := cmul w1p w2p in
      let w4p := cmul w2p w2p in
      let w5p := cmul w2p w3p in
      let w6p := cmul w3p w3p in
      let w7p := cmul w3p w4p in
      let w8p := cmul w4p w4p in
      let w9p := cmul w4p w5p in
      let wap := cmul w5p w5p in
      let wbp := cmul w5p w6p in
      let wcp := cmul w6p w6p in
      let wdp := cmul w6p w7p in
      let wep := cmul w7p w7p in
      let wfp := cmul w7p w8p in
            [cadd a08p1a4c_p1_a2ap1a6e a19p1a5d_p1_a3bp1a7f; cmul w1p (cadd s08pjs4c_pv_s2apjs6e
        hf_s19pjs5d_pv_s3bpjs7f); cmul w2p (cadd a08m1a4c_pj_a2am1a6e v8_a19m1a5d_pj_a3bm1a7f); cmul w3p (cadd
        s08mjs4c_mw_s2amjs6e hd_s19mjs5d_mw_s3bmjs7f); cmul w4p (cadd a08p1a4c_m1_a2ap1a6e j_a19p1a5d_m1_a3bp1a7f);
        cmul w5p (csub s08pjs4c_mv_s2apjs6e h3_s19pjs5d_mv_s3bpjs7f); cmul w6p (csub a08m1a4c_mj_a2am1a6e
        w8_a19m1a5d_mj_a3bm1a7f); cmul w7p (csub s08mjs4c_pw_s2amjs6e h1_s19mjs5d_pw_s3bmjs7f); cmul w8p (csub
        a08p1a4c_p1_a2ap1a6e a19p1a5d_p1_a3bp1a7f); cmul w9p (csub s08pjs4c_pv_s2apjs6e hf_s19pjs5d_pv_s3bpjs7f); cmul
        wap (csub a08m1a4c_pj_a2am1a6e v8_a19m1a5d_pj_a3bm1a7f); cmul wbp (csub s08mjs4c_mw_s2amjs6e
        hd_s19mjs5d_mw_s3bmjs7f); cmul wcp (csub a08p1a4c_m1_a2ap1a6e j_a19p1a5d_m1_a3bp1a7f); cmul wdp (cadd
        s08pjs4c_mv_s2apjs6e h3_s19pjs5d_mv_s3bpjs7f); cmul wep (cadd a08m1a4c_mj_a2am1a6e w8_a19m1a5d_mj_a3bm1a7f);
        cmul wfp (cadd s08mjs4c_pw_s2amjs6e h1_s19mjs5d_pw_s3bmjs7f)]
  | _ => []
  end.
(** dif16o_invcore : the addresses of one lane *)
Definition dif16o_invcore_lane (n s : nat) (x y W : ptr) (p q : nat) : lane C :=
  let N := n * s in
  let N0 := 0 in
  let N1 := N / 16 in
  let N2 := N1 * 2 in
  let N3 := N1 * 3 in
  let N4 := N1 * 4 in
  let N5 := N1 * 5 in
  let N6 := N1 * 6 in
  let N7 := N1 * 7 in
  let N8 := N1 * 8 in
  let N9 := N1 * 9 in
  let Na := N1 * 10 in
  let Nb := N1 * 11 in
  let Nc := N1 * 12 in
  let Nd := N1 * 13 in
  let Ne := N1 * 14 in
  let Nf := N1 * 15 in
  let sp := s * p in
  let s16p := 16 * sp in
  let xq_sp := x +! (q + sp) in
  let yq_s16p := y +! (q + s16p) in
    Lane [W +! sp; xq_sp +! N0; xq_sp +! N1; xq_sp +! N2; xq_sp +! N3; xq_sp +! N4; xq_sp +! N5; xq_sp +! N6; xq_sp +!
    N7; xq_sp +! N8; xq_sp +! N9; xq_sp +! Na; xq_sp +! Nb; xq_sp +! Nc; xq_sp +! Nd; xq_sp +! Ne; xq_sp +! Nf]
              [yq_s16p +! (s * 0); yq_s16p +! (s * 1); yq_s16p +! (s * 2); yq_s16p +! (s * 3); yq_s16p +! (s * 4);
         yq_s16p +! (s * 5); yq_s16p +! (s * 6); yq_s16p +! (s * 7); yq_s16p +! (s * 8); yq_s16p +! (s * 9); yq_s16p
         +! (s * 10); yq_s16p +! (s * 11); yq_s16p +! (s * 12); yq_s16p +! (s * 13); yq_s16p +! (s * 14); yq_s16p +!
         (s * 15)]
       (dif16o_invcore_fn).
Definition dif16o_invcore (n s : nat) (x y W : ptr) : list (phase (V:=C)) :=
  let N := n * s in
  let N1 := N / 16 in
  let Ni := N1 / 4 in
  let h := s / 4 in
  [(Ni, fun i => vblock 4 (fun l => dif16o_invcore_lane n s x y W (i / h) ((i mod h) * 4 + l)))].

(** dif16o_invcore1 : src/otfft_avxdif16omp.h:776-965, the arithmetic of one lane *)
Definition dif16o_invcore1_fn (v : list C) : list C :=
  match v with
  | [w1p_in; x0; x1; x2; x3; x4; x5; x6; x7; x8; x9; xa; xb; xc; xd; xe; xf] =>
      let w1p := cconj w1p_in in
      let a08 := cadd x0 x8 in
      let s08 := csub x0 x8 in
      let a4c := cadd x4 xc in
      let s4c := csub x4 xc in
      let a2a := cadd x2 xa in
      let s2a := csub x2 xa in
      let a6e := cadd x6 xe in
      let s6e := csub x6 xe in
      let a19 := cadd x1 x9 in
      let s19 := csub x1 x9 in
      let a5d := cadd x5 xd in
      let s5d := csub x5 xd in
      let a3b := cadd x3 xb in
      let s3b := csub x3 xb in
      let a7f := cadd x7 xf in
      let s7f := csub x7 xf in
      let js4c := jx s4c in
      let js6e := jx s6e in
      let js5d := jx s5d in
      let js7f := jx s7f in
      let a08p1a4c := cadd a08 a4c in
      let s08mjs4c := csub s08 js4c in
      let a08m1a4c := csub a08 a4c in
      let s08pjs4c := cadd s08 js4c in
      let a2ap1a6e := cadd a2a a6e in
      let s2amjs6e := csub s2a js6e in
      let a2am1a6e := csub a2a a6e in
      let s2apjs6e := cadd s2a js6e in
      let a19p1a5d := cadd a19 a5d in
      let s19mjs5d := csub s19 js5d in
      let a19m1a5d := csub a19 a5d in
      let s19pjs5d := cadd s19 js5d in
      let a3bp1a7f := cadd a3b a7f in
      let s3bmjs7f := csub s3b js7f in
      let a3bm1a7f := csub a3b a7f in
      let s3bpjs7f := cadd s3b js7f in
      let w8_s2amjs6e := w8x s2amjs6e in
      let j_a2am1a6e := jx a2am1a6e in
      let v8_s2apjs6e := v8x s2apjs6e in
      let a08p1a4c_p1_a2ap1a6e := cadd a08p1a4c a2ap1a6e in
      let s08mjs4c_pw_s2amjs6e := cadd s08mjs4c w8_s2amjs6e in
      let a08m1a4c_mj_a2am1a6e := csub a08m1a4c j_a2am1a6e in
      let s08pjs4c_mv_s2apjs6e := csub s08pjs4c v8_s2apjs6e in
      let a08p1a4c_m1_a2ap1a6e := csub a08p1a4c a2ap1a6e in
      let s08mjs4c_mw_s2amjs6e := csub s08mjs4c w8_s2amjs6e in
      let a08m1a4c_pj_a2am1a6e := cadd a08m1a4c j_a2am1a6e in
      let s08pjs4c_pv_s2apjs6e := cadd s08pjs4c v8_s2apjs6e in
      let w8_s3bmjs7f := w8x s3bmjs7f in
      let j_a3bm1a7f := jx a3bm1a7f in
      let v8_s3bpjs7f := v8x s3bpjs7f in
      let a19p1a5d_p1_a3bp1a7f := cadd a19p1a5d a3bp1a7f in
      let s19mjs5d_pw_s3bmjs7f := cadd s19mjs5d w8_s3bmjs7f in
      let a19m1a5d_mj_a3bm1a7f := csub a19m1a5d j_a3bm1a7f in
      let s19pjs5d_mv_s3bpjs7f := csub s19pjs5d v8_s3bpjs7f in
      let a19p1a5d_m1_a3bp1a7f := csub a19p1a5d a3bp1a7f in
      let s19mjs5d_mw_s3bmjs7f := csub s19mjs5d w8_s3bmjs7f in
      let a19m1a5d_pj_a3bm1a7f := cadd a19m1a5d j_a3bm1a7f in
      let s19pjs5d_pv_s3bpjs7f := cadd s19pjs5d v8_s3bpjs7f in
      let h1_s19mjs5d_pw_s3bmjs7f := h1x s19mjs5d_pw_s3bmjs7f in
      let w8_a19m1a5d_mj_a3bm1a7f := w8x a19m1a5d_mj_a3bm1a7f in
      let h3_s19pjs5d_mv_s3bpjs7f := h3x s19pjs5d_mv_s3bpjs7f in
      let j_a19p1a5d_m1_a3bp1a7f := jx a19p1a5d_m1_a3bp1a7f in
      let hd_s19mjs5d_mw_s3bmjs7f := hdx s19mjs5d_mw_s3bmjs7f in
      let v8_a19m1a5d_pj_a3bm1a7f := v8x a19m1a5d_pj_a3bm1a7f in
      let hf_s19pjs5d_pv_s3bpjs7f := hfx s19pjs5d_pv_s3bpjs7f in
      let w2p := cmul w1p w1p in
      let w3p := cmul w1p w2p in
      let w4p := cmul w2p w2p in
      let w5p := cmul w2p w3p in
      let w6p := cmul w3p w3p in
      let w7p := cmul w3p w4p in
      let w8p := cmul w4p w4p in
      let w9p := cmul w4p w5p in
      let wap := cmul w5p w5p in
      let wbp := cmul w5p w6p in
      let wcp := cmul w6p w6p in
      let wdp := cmul w6p w7p in
      let wep := cmul w7p w7p in
      let wfp := cmul w7p w8p in
      let aA := cadd a08p1a4c_p1_a2ap1a6e a19p1a5d_p1_a3bp1a7f in
      let bB := cmul w1p (cadd s08pjs4c_pv_s2apjs6e hf_s19pjs5d_pv_s3bpjs7f) in
      let cC := cmul w2p (cadd a08m1a4c_pj_a2am1a6e v8_a19m1a5d_pj_a3bm1a7f) in
      let dD := cmul w3p (cadd s08mjs4c_mw_s2amjs6e hd_s19mjs5d_mw_s3bmjs7f) in
      let eE := cmul w4p (cadd a08p1a4c_m1_a2ap1a6e j_a19p1a5d_m1_a3bp1a7f) in
      let fF := cmul w5p (csub s08pjs4c_mv_s2apjs6e h3_s19pjs5d_mv_s3bpjs7f) in
      let gG := cmul w6p (csub a08m1a4c_mj_a2am1a6e w8_a19m1a5d_mj_a3bm1a7f) in
      let hH := cmul w7p (csub s08mjs4c_pw_s2amjs6e h1_s19mjs5d_pw_s3bmjs7f) in
      let iI := cmul w8p (csub a08p1a4c_p1_a2ap1a6e a19p1a5d_p1_a3bp1a7f) in
      let jJ := cmul w9p (csub s08pjs4c_pv_s2apjs6e hf_s19pjs5d_pv_s3bpjs7f) in
      let kK := cmul wap (csub a08m1a4c_pj_a2am1a6e v8_a19m1a5d_pj_a3bm1a7f) in
      let lL := cmul wbp (csub s08mjs4c_mw_s2amjs6e hd_s19mjs5d_mw_s3bmjs7f) in
      let mM := cmul wcp (csub a08p1a4c_m1_a2ap1a6e j_a19p1a5d_m1_a3bp1a7f) in
      let nN := cmul wdp (cadd s08pjs4c_mv_s2apjs6e h3_s19pjs5d_mv_s3bpjs7f) in
      let oO := cmul wep (cadd a08m1a4c_mj_a2am1a6e w8_a19m1a5d_mj_a3bm1a7f) in
      let pP := cmul wfp (cadd s08mjs4c_pw_s2amjs6e h1_s19mjs5d_pw_s3bmjs7f) in
      [aA; bB; cC; dD; eE; fF; gG; hH; iI; jJ; kK; lL; mM; nN; oO; pP]
  | _ => []
  end.
(** dif16o_invcore1 : the addresses of one lane *)
Definition dif16o_invcore1_lane (N : nat) (x y W : ptr) (p : nat) : lane C :=
  let N0 := 0 in
  let N1 := N / 16 in
  let N2 := N1 * 2 in
  let N3 := N1 * 3 in
  let N4 := N1 * 4 in
  let N5 := N1 * 5 in
  let N6 := N1 * 6 in
  let N7 := N1 * 7 in
  let N8 := N1 * 8 in
  let N9 := N1 * 9 in
  let Na := N1 * 10 in
  let Nb := N1 * 11 in
  let Nc := N1 * 12 in
  let Nd := N1 * 13 in
  let Ne := N1 * 14 in
  let Nf := N1 * 15 in
  let x_p := x +! p in
  let y_16p := y +! (16 * p) in
    Lane [W +! p; x_p +! N0; x_p +! N1; x_p +! N2; x_p +! N3; x_p +! N4; x_p +! N5; x_p +! N6; x_p +! N7; x_p +! N8;
    x_p +! N9; x_p +! Na; x_p +! Nb; x_p +! Nc; x_p +! Nd; x_p +! Ne; x_p +! Nf]
              [y_16p +! 0; y_16p +! (0 + 1); y_16p +! 2; y_16p +! (2 + 1); y_16p +! 4; y_16p +! (4 + 1); y_16p +! 6;
         y_16p +! (6 + 1); y_16p +! 8; y_16p +! (8 + 1); y_16p +! 10; y_16p +! (10 + 1); y_16p +! 12; y_16p +! (12 +
         1); y_16p +! 14; y_16p +! (14 + 1)]
       (dif16o_invcore1_fn).
Definition dif16o_invcore1 (N : nat) (x y W : ptr) : list (phase (V:=C)) :=
  let N1 := N / 16 in
  [par_step N1 2 (fun p => vblock 2 (fun l => dif16o_invcore1_lane N x y W (p + l)))].

(** dif16o_invend16 : src/otfft_avxdif16omp.h:973-1078, the arithmetic of one lane *)
Definition dif16o_invend16_fn (N : nat) (mode : smode) (v : list C) : list C :=
  match v with
    | [x0_in; x1_in; x2_in; x3_in; x4_in; x5_in; x6_in; x7_in; x8_in; x9_in; xa_in; xb_in; xc_in; xd_in; xe_in; xf_in]
    =>
      let x0 := scalepz N mode x0_in in
      let x1 := scalepz N mode x1_in in
      let x2 := scalepz N mode x2_in in
      let x3 := scalepz N mode x3_in in
      let x4 := scalepz N mode x4_in in
      let x5 := scalepz N mode x5_in in
      let x6 := scalepz N mode x6_in in
      let x7 := scalepz N mode x7_in in
      let x8 := scalepz N mode x8_in in
      let x9 := scalepz N mode x9_in in
      let xa := scalepz N mode xa_in in
      let xb := scalepz N mode xb_in in
      let xc := scalepz N mode xc_in in
      let xd := scalepz N mode xd_in in
      let xe := scalepz N mode xe_in in
      let xf := scalepz N mode xf_in in
      let a08 := cadd x0 x8 in
      let s08 := csub x0 x8 in
      let a4c := cadd x4 xc in
      let s4c := csub x4 xc in
      let a2a := cadd x2 xa in
      let s2a := csub x2 xa in
      let a6e := cadd x6 xe in
      let s6e := csub x6 xe in
      let a19 := cadd x1 x9 in
      let s19 := csub x1 x9 in
      let a5d := cadd x5 xd in
      let s5d := csub x5 xd in
      let a3b := cadd x3 xb in
      let s3b := csub x3 xb in
      let a7f := cadd x7 xf in
      let s7f := csub x7 xf in
      let js4c := jx s4c in
      let js6e := jx s6e in
      let js5d := jx s5d in
      let js7f := jx s7f in
      let a08p1a4c := cadd a08 a4c in
      let s08mjs4c := csub s08 js4c in
      let a08m1a4c := csub a08 a4c in
      let s08pjs4c := cadd s08 js4c in
      let a2ap1a6e := cadd a2a a6e in
      let s2amjs6e := csub s2a js6e in
      let a2am1a6e := csub a2a a6e in
      let s2apjs6e := cadd s2a js6e in
      let a19p1a5d := cadd a19 a5d in
      let s19mjs5d := csub s19 js5d in
      let a19m1a5d := csub a19 a5d in
      let s19pjs5d := cadd s19 js5d in
      let a3bp1a7f := cadd a3b a7f in
      let s3bmjs7f := csub s3b js7f in
      let a3bm1a7f := csub a3b a7f in
      let s3bpjs7f := cadd s3b js7f in
      let w8_s2amjs6e := w8x s2amjs6e in
      let j_a2am1a6e := jx a2am1a6e in
      let v8_s2apjs6e := v8x s2apjs6e in
      let a08p1a4c_p1_a2ap1a6e := cadd a08p1a4c a2ap1a6e in
      let s08mjs4c_pw_s2amjs6e := cadd s08mjs4c w8_s2amjs6e in
      let a08m1a4c_mj_a2am1a6e := csub a08m1a4c j_a2am1a6e in
      let s08pjs4c_mv_s2apjs6e := csub s08pjs4c v8_s2apjs6e in
      let a08p1a4c_m1_a2ap1a6e := csub a08p1a4c a2ap1a6e in
      let s08mjs4c_mw_s2amjs6e := csub s08mjs4c w8_s2amjs6e in
      let a08m1a4c_pj_a2am1a6e := cadd a08m1a4c j_a2am1a6e in
      let s08pjs4c_pv_s2apjs6e := cadd s08pjs4c v8_s2apjs6e in
      let w8_s3bmjs7f := w8x s3bmjs7f in
      let j_a3bm1a7f := jx a3bm1a7f in
      let v8_s3bpjs7f := v8x s3bpjs7f in
      let a19p1a5d_p1_a3bp1a7f := cadd a19p1a5d a3bp1a7f in
      let s19mjs5d_pw_s3bmjs7f := cadd s19mjs5d w8_s3bmjs7f in
      let a19m1a5d_mj_a3bm1a7f := csub a19m1a5d j_a3bm1a7f in
      let s19pjs5d_mv_s3bpjs7f := csub s19pjs5d v8_s3bpjs7f in
      let a19p1a5d_m1_a3bp1a7f := csub a19p1a5d a3bp1a7f in
      let s19mjs5d_mw_s3bmjs7f := csub s19mjs5d w8_s3bmjs7f in
      let a19m1a5d_pj_a3bm1a7f := cadd a19m1a5d j_a3bm1a7f in
      let s19pjs5d_pv_s3bpjs7f := cadd s19pjs5d v8_s3bpjs7f in
      let h1_s19mjs5d_pw_s3bmjs7f := h1x s19mjs5d_pw_s3bmjs7f in
      let w8_a19m1a5d_mj_a3bm1a7f := w8x a19m1a5d_mj_a3bm1a7f in
      let h3_s19pjs5d_mv_s3bpjs7f := h3x s19pjs5d_mv_s3bpjs7f in
      let j_a19p1a5d_m1_a3bp1a7f := jx a19p1a5d_m1_a3bp1a7f in
      let hd_s19mjs5d_mw_s3bmjs7f := hdx s19mjs5d_mw_s3bmjs7f in
      let v8_a19m1a5d_pj_a3bm1a7f := v8x a19m1a5d_pj_a3bm1a7f in
      let hf_s19pjs5d_pv_s3bpjs7f := hfx s19pjs5d_pv_s3bpjs7f in
            [cadd a08p1a4c_p1_a2ap1a6e a19p1a5d_p1_a3bp1a7f; cadd s08pjs4c_pv_s2apjs6e hf_s19pjs5d_pv_s3bpjs7f; cadd
        a08m1a4c_pj_a2am1a6e v8_a19m1a5d_pj_a3bm1a7f; cadd s08mjs4c_mw_s2amjs6e hd_s19mjs5d_mw_s3bmjs7f; cadd
        a08p1a4c_m1_a2ap1a6e j_a19p1a5d_m1_a3bp1a7f; csub s08pjs4c_mv_s2apjs6e h3_s19pjs5d_mv_s3bpjs7f; csub
        a08m1a4c_mj_a2am1a6e w8_a19m1a5d_mj_a3bm1a7f; csub s08mjs4c_pw_s2amjs6e h1_s19mjs5d_pw_s3bmjs7f; csub
        a08p1a4c_p1_a2ap1a6e a19p1a5d_p1_a3bp1a7f; csub s08pjs4c_pv_s2apjs6e hf_s19pjs5d_pv_s3bpjs7f; csub
        a08m1a4c_pj_a2am1a6e v8_a19m1a5d_pj_a3bm1a7f; csub s08mjs4c_mw_s2amjs6e hd_s19mjs5d_mw_s3bmjs7f; csub
        a08p1a4c_m1_a2ap1a6e j_a19p1a5d_m1_a3bp1a7f; cadd s08pjs4c_mv_s2apjs6e h3_s19pjs5d_mv_s3bpjs7f; cadd
        a08m1a4c_mj_a2am1a6e w8_a19m1a5d_mj_a3bm1a7f; cadd s08mjs4c_pw_s2amjs6e h1_s19mjs5d_pw_s3bmjs7f]
  | _ => []
  end.
(** dif16o_invend16 : the addresses of one lane *)
Definition dif16o_invend16_lane (mode : smode) (s : nat) (eo : bool) (x y : ptr) (q : nat) : lane C :=
  let N := 16 * s in
  let z := if eo then y else x in
  let xq := x +! q in
  let zq := z +! q in
    Lane [xq +! (s * 0); xq +! (s * 1); xq +! (s * 2); xq +! (s * 3); xq +! (s * 4); xq +! (s * 5); xq +! (s * 6); xq
    +! (s * 7); xq +! (s * 8); xq +! (s * 9); xq +! (s * 10); xq +! (s * 11); xq +! (s * 12); xq +! (s * 13); xq +! (s
    * 14); xq +! (s * 15)]
              [zq +! (s * 0); zq +! (s * 1); zq +! (s * 2); zq +! (s * 3); zq +! (s * 4); zq +! (s * 5); zq +! (s *
         6); zq +! (s * 7); zq +! (s * 8); zq +! (s * 9); zq +! (s * 10); zq +! (s * 11); zq +! (s * 12); zq +! (s *
         13); zq +! (s * 14); zq +! (s * 15)]
       (dif16o_invend16_fn N mode).
Definition dif16o_invend16 (mode : smode) (s : nat) (eo : bool) (x y : ptr) : list (phase (V:=C)) :=
  [par_step s 2 (fun q => vblock 2 (fun l => dif16o_invend16_lane mode s eo x y (q + l)))].

(** dif16o_invend16_1 : src/otfft_avxdif16omp.h:1080-1181, the arithmetic of one lane *)
Definition dif16o_invend16_1_fn (mode : smode) (v : list C) : list C :=
  match v with
    | [x0_in; x1_in; x2_in; x3_in; x4_in; x5_in; x6_in; x7_in; x8_in; x9_in; xa_in; xb_in; xc_in; xd_in; xe_in; xf_in]
    =>
      let x0 := scalepz 16 mode x0_in in
      let x1 := scalepz 16 mode x1_in in
      let x2 := scalepz 16 mode x2_in in
      let x3 := scalepz 16 mode x3_in in
      let x4 := scalepz 16 mode x4_in in
      let x5 := scalepz 16 mode x5_in in
      let x6 := scalepz 16 mode x6_in in
      let x7 := scalepz 16 mode x7_in in
      let x8 := scalepz 16 mode x8_in in
      let x9 := scalepz 16 mode x9_in in
      let xa := scalepz 16 mode xa_in in
      let xb := scalepz 16 mode xb_in in
      let xc := scalepz 16 mode xc_in in
      let xd := scalepz 16 mode xd_in in
      let xe := scalepz 16 mode xe_in in
      let xf := scalepz 16 mode xf_in in
      let a08 := cadd x0 x8 in
      let s08 := csub x0 x8 in
      let a4c := cadd x4 xc in
      let s4c := csub x4 xc in
      let a2a := cadd x2 xa in
      let s2a := csub x2 xa in
      let a6e := cadd x6 xe in
      let s6e := csub x6 xe in
      let a19 := cadd x1 x9 in
      let s19 := csub x1 x9 in
      let a5d := cadd x5 xd in
      let s5d := csub x5 xd in
      let a3b := cadd x3 xb in
      let s3b := csub x3 xb in
      let a7f := cadd x7 xf in
      let s7f := csub x7 xf in
      let js4c := jx s4c in
      let js6e := jx s6e in
      let js5d := jx s5d in
      let js7f := jx s7f in
      let a08p1a4c := cadd a08 a4c in
      let s08mjs4c := csub s08 js4c in
      let a08m1a4c := csub a08 a4c in
      let s08pjs4c := cadd s08 js4c in
      let a2ap1a6e := cadd a2a a6e in
      let s2amjs6e := csub s2a js6e in
      let a2am1a6e := csub a2a a6e in
      let s2apjs6e := cadd s2a js6e in
      let a19p1a5d := cadd a19 a5d in
      let s19mjs5d := csub s19 js5d in
      let a19m1a5d := csub a19 a5d in
      let s19pjs5d := cadd s19 js5d in
      let a3bp1a7f := cadd a3b a7f in
      let s3bmjs7f := csub s3b js7f in
      let a3bm1a7f := csub a3b a7f in
      let s3bpjs7f := cadd s3b js7f in
      let w8_s2amjs6e := w8x s2amjs6e in
      let j_a2am1a6e := jx a2am1a6e in
      let v8_s2apjs6e := v8x s2apjs6e in
      let a08p1a4c_p1_a2ap1a6e := cadd a08p1a4c a2ap1a6e in
      let s08mjs4c_pw_s2amjs6e := cadd s08mjs4c w8_s2amjs6e in
      let a08m1a4c_mj_a2am1a6e := csub a08m1a4c j_a2am1a6e in
      let s08pjs4c_mv_s2apjs6e := csub s08pjs4c v8_s2apjs6e in
      let a08p1a4c_m1_a2ap1a6e := csub a08p1a4c a2ap1a6e in
      let s08mjs4c_mw_s2amjs6e := csub s08mjs4c w8_s2amjs6e in
      let a08m1a4c_pj_a2am1a6e := cadd a08m1a4c j_a2am1a6e in
      let s08pjs4c_pv_s2apjs6e := cadd s08pjs4c v8_s2apjs6e in
      let w8_s3bmjs7f := w8x s3bmjs7f in
      let j_a3bm1a7f := jx a3bm1a7f in
      let v8_s3bpjs7f := v8x s3bpjs7f in
      let a19p1a5d_p1_a3bp1a7f := cadd a19p1a5d a3bp1a7f in
      let s19mjs5d_pw_s3bmjs7f := cadd s19mjs5d w8_s3bmjs7f in
      let a19m1a5d_mj_a3bm1a7f := csub a19m1a5d j_a3bm1a7f in
      let s19pjs5d_mv_s3bpjs7f := csub s19pjs5d v8_s3bpjs7f in
      let a19p1a5d_m1_a3bp1a7f := csub a19p1a5d a3bp1a7f in
      let s19mjs5d_mw_s3bmjs7f := csub s19mjs5d w8_s3bmjs7f in
      let a19m1a5d_pj_a3bm1a7f := cadd a19m1a5d j_a3bm1a7f in
      let s19pjs5d_pv_s3bpjs7f := cadd s19pjs5d v8_s3bpjs7f in
      let h1_s19mjs5d_pw_s3bmjs7f := h1x s19mjs5d_pw_s3bmjs7f in
      let w8_a19m1a5d_mj_a3bm1a7f := w8x a19m1a5d_mj_a3bm1a7f in
      let h3_s19pjs5d_mv_s3bpjs7f := h3x s19pjs5d_mv_s3bpjs7f in
      let j_a19p1a5d_m1_a3bp1a7f := jx a19p1a5d_m1_a3bp1a7f in
      let hd_s19mjs5d_mw_s3bmjs7f := hdx s19mjs5d_mw_s3bmjs7f in
      let v8_a19m1a5d_pj_a3bm1a7f := v8x a19m1a5d_pj_a3bm1a7f in
      let hf_s19pjs5d_pv_s3bpjs7f := hfx s19pjs5d_pv_s3bpjs7f in
            [cadd a08p1a4c_p1_a2ap1a6e a19p1a5d_p1_a3bp1a7f; cadd s08pjs4c_pv_s2apjs6e hf_s19pjs5d_pv_s3bpjs7f; cadd
        a08m1a4c_pj_a2am1a6e v8_a19m1a5d_pj_a3bm1a7f; cadd s08mjs4c_mw_s2amjs6e hd_s19mjs5d_mw_s3bmjs7f; cadd
        a08p1a4c_m1_a2ap1a6e j_a19p1a5d_m1_a3bp1a7f; csub s08pjs4c_mv_s2apjs6e h3_s19pjs5d_mv_s3bpjs7f; csub
        a08m1a4c_mj_a2am1a6e w8_a19m1a5d_mj_a3bm1a7f; csub s08mjs4c_pw_s2amjs6e h1_s19mjs5d_pw_s3bmjs7f; csub
        a08p1a4c_p1_a2ap1a6e a19p1a5d_p1_a3bp1a7f; csub s08pjs4c_pv_s2apjs6e hf_s19pjs5d_pv_s3bpjs7f; csub
        a08m1a4c_pj_a2am1a6e v8_a19m1a5d_pj_a3bm1a7f; csub s08mjs4c_mw_s2amjs6e hd_s19mjs5d_mw_s3bmjs7f; csub
        a08p1a4c_m1_a2ap1a6e j_a19p1a5d_m1_a3bp1a7f; cadd s08pjs4c_mv_s2apjs6e h3_s19pjs5d_mv_s3bpjs7f; cadd
        a08m1a4c_mj_a2am1a6e w8_a19m1a5d_mj_a3bm1a7f; cadd s08mjs4c_pw_s2amjs6e h1_s19mjs5d_pw_s3bmjs7f]
  | _ => []
  end.
(** dif16o_invend16_1 : the addresses of one lane *)
Definition dif16o_invend16_1_lane (mode : smode) (eo : bool) (x y : ptr) : lane C :=
  let z := if eo then y else x in
    Lane [x +! 0; x +! 1; x +! 2; x +! 3; x +! 4; x +! 5; x +! 6; x +! 7; x +! 8; x +! 9; x +! 10; x +! 11; x +! 12; x
    +! 13; x +! 14; x +! 15]
              [z +! 0; z +! 1; z +! 2; z +! 3; z +! 4; z +! 5; z +! 6; z +! 7; z +! 8; z +! 9; z +! 10; z +! 11; z +!
         12; z +! 13; z +! 14; z +! 15]
       (dif16o_invend16_1_fn mode).
Definition dif16o_invend16_1 (mode : smode) (eo : bool) (x y : ptr) : list (phase (V:=C)) :=
  [single (lblock (dif16o_invend16_1_lane mode eo x y))].

End ModelDif16.
