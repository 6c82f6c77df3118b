(** * Radix-4 decimation-in-time kernels, transcribed by tools/kernels.py

    Serial kernels: src/otfft_avxdit4.h; kernels for a thread team (suffix o): src/otfft_avxdit4omp.h.
    Each kernel is [_fn] (what one SIMD lane computes from its loaded values), [_lane] (which addresses
    that lane loads and stores; loads are listed twiddles first and then in address order, and all of
    them precede the stores in the source too; twiddles hoisted out of the q loop are listed with the lane
    that uses them, the table being read-only here) and the loop nest around it.  A pragma omp for is one
    phase of a region; inactive preprocessor branches (if 0, DO_SINGLE_THREAD) are not modelled. *)

From Coq Require Import List Arith.
From Verif Require Import Scalar Mem Omp Lanes Twid.
Import ListNotations.

Section ModelDit4.
Context {Op : Ops}.

(** dit4_fwdcore : src/otfft_avxdit4.h:32-68, the arithmetic of one lane *)
Definition dit4_fwdcore_fn (v : list C) : list C :=
  match v with
  | [w1p; w2p; w3p; a; b_in; c_in; d_in] =>
      let b := cmul w1p b_in in
      let c := cmul w2p c_in in
      let d := cmul w3p d_in in
      let apc := cadd a c in
      let amc := csub a c in
      let bpd := cadd b d in
      let jbmd := jx (csub b d) in
      [cadd apc bpd; csub amc jbmd; csub apc bpd; cadd amc jbmd]
  | _ => []
  end.
(** dit4_fwdcore : the addresses of one lane *)
Definition dit4_fwdcore_lane (n s : nat) (x y W : ptr) (p q : nat) : lane C :=
  let N := n * s in
  let N0 := 0 in
  let N1 := N / 4 in
  let N2 := N1 * 2 in
  let N3 := N1 * 3 in
  let sp := s * p in
  let s4p := 4 * sp in
  let xq_sp := x +! (q + sp) in
  let yq_s4p := y +! (q + s4p) in
    Lane [twidT 4 N 1 W sp; twidT 4 N 2 W sp; twidT 4 N 3 W sp; yq_s4p +! (s * 0); yq_s4p +! (s * 1); yq_s4p +! (s *
    2); yq_s4p +! (s * 3)]
       [xq_sp +! N0; xq_sp +! N1; xq_sp +! N2; xq_sp +! N3]
       (dit4_fwdcore_fn).
Definition dit4_fwdcore (n s : nat) (x y W : ptr) : prog C unit :=
  let m := n / 4 in
  for_ m (fun p => for_step s 4 (fun q => vblock 4 (fun l => dit4_fwdcore_lane n s x y W p (q + l)))).

(** dit4_fwdcore1 : src/otfft_avxdit4.h:70-114, the arithmetic of one lane *)
Definition dit4_fwdcore1_fn (v : list C) : list C :=
  match v with
  | [w1p; w2p; w3p; a; b_in; c_in; d_in] =>
      let b := cmul w1p b_in in
      let c := cmul w2p c_in in
      let d := cmul w3p d_in in
      let apc := cadd a c in
      let amc := csub a c in
      let bpd := cadd b d in
      let jbmd := jx (csub b d) in
      [cadd apc bpd; csub amc jbmd; csub apc bpd; cadd amc jbmd]
  | _ => []
  end.
(** dit4_fwdcore1 : the addresses of one lane *)
Definition dit4_fwdcore1_lane (N : nat) (x y W : ptr) (p : nat) : lane C :=
  let N0 := 0 in
  let N1 := N / 4 in
  let N2 := N1 * 2 in
  let N3 := N1 * 3 in
  let x_p := x +! p in
  let y_4p := y +! (4 * p) in
  Lane [twid 4 N 1 W p; twid 4 N 2 W p; twid 4 N 3 W p; y_4p +! 0; y_4p +! (0 + 1); y_4p +! 2; y_4p +! (2 + 1)]
       [x_p +! N0; x_p +! N1; x_p +! N2; x_p +! N3]
       (dit4_fwdcore1_fn).
Definition dit4_fwdcore1 (N : nat) (x y W : ptr) : prog C unit :=
  let N1 := N / 4 in
  for_step N1 2 (fun p => vblock 2 (fun l => dit4_fwdcore1_lane N x y W (p + l))).

(** dit4_fwdend4 : src/otfft_avxdit4.h:122-146, the arithmetic of one lane *)
Definition dit4_fwdend4_fn (N : nat) (mode : smode) (v : list C) : list C :=
  match v with
  | [a_in; b_in; c_in; d_in] =>
      let a := scalepz N mode a_in in
      let b := scalepz N mode b_in in
      let c := scalepz N mode c_in in
      let d := scalepz N mode d_in in
      let apc := cadd a c in
      let amc := csub a c in
      let bpd := cadd b d in
      let jbmd := jx (csub b d) in
      [cadd apc bpd; csub amc jbmd; csub apc bpd; cadd amc jbmd]
  | _ => []
  end.
(** dit4_fwdend4 : the addresses of one lane *)
Definition dit4_fwdend4_lane (mode : smode) (s : nat) (eo : bool) (x y : ptr) (q : nat) : lane C :=
  let N := 4 * s in
  let z := if eo then y else x in
  let xq := x +! q in
  let zq := z +! q in
  Lane [zq +! (s * 0); zq +! (s * 1); zq +! (s * 2); zq +! (s * 3)]
       [xq +! (s * 0); xq +! (s * 1); xq +! (s * 2); xq +! (s * 3)]
       (dit4_fwdend4_fn N mode).
Definition dit4_fwdend4 (mode : smode) (s : nat) (eo : bool) (x y : ptr) : prog C unit :=
  for_step s 2 (fun q => vblock 2 (fun l => dit4_fwdend4_lane mode s eo x y (q + l))).

(** dit4_fwdend4_1 : src/otfft_avxdit4.h:148-167, the arithmetic of one lane *)
Definition dit4_fwdend4_1_fn (mode : smode) (v : list C) : list C :=
  match v with
  | [a_in; b_in; c_in; d_in] =>
      let a := scalepz 4 mode a_in in
      let b := scalepz 4 mode b_in in
      let c := scalepz 4 mode c_in in
      let d := scalepz 4 mode d_in in
      let apc := cadd a c in
      let amc := csub a c in
      let bpd := cadd b d in
      let jbmd := jx (csub b d) in
      [cadd apc bpd; csub amc jbmd; csub apc bpd; cadd amc jbmd]
  | _ => []
  end.
(** dit4_fwdend4_1 : the addresses of one lane *)
Definition dit4_fwdend4_1_lane (mode : smode) (eo : bool) (x y : ptr) : lane C :=
  let z := if eo then y else x in
  Lane [z +! 0; z +! 1; z +! 2; z +! 3]
       [x +! 0; x +! 1; x +! 2; x +! 3]
       (dit4_fwdend4_1_fn mode).
Definition dit4_fwdend4_1 (mode : smode) (eo : bool) (x y : ptr) : prog C unit :=
  lblock (dit4_fwdend4_1_lane mode eo x y).

(** dit4_fwdend2 : src/otfft_avxdit4.h:171-187, the arithmetic of one lane *)
Definition dit4_fwdend2_fn (N : nat) (mode : smode) (v : list C) : list C :=
  match v with
  | [a_in; b_in] =>
      let a := scalepz N mode a_in in
      let b := scalepz N mode b_in in
      [cadd a b; csub a b]
  | _ => []
  end.
(** dit4_fwdend2 : the addresses of one lane *)
Definition dit4_fwdend2_lane (mode : smode) (s : nat) (eo : bool) (x y : ptr) (q : nat) : lane C :=
  let N := 2 * s in
  let z := if eo then y else x in
  let xq := x +! q in
  let zq := z +! q in
  Lane [zq +! 0; zq +! s]
       [xq +! 0; xq +! s]
       (dit4_fwdend2_fn N mode).
Definition dit4_fwdend2 (mode : smode) (s : nat) (eo : bool) (x y : ptr) : prog C unit :=
  for_step s 2 (fun q => vblock 2 (fun l => dit4_fwdend2_lane mode s eo x y (q + l))).

(** dit4_fwdend2_1 : src/otfft_avxdit4.h:189-200, the arithmetic of one lane *)
Definition dit4_fwdend2_1_fn (mode : smode) (v : list C) : list C :=
  match v with
  | [a_in; b_in] =>
      let a := scalepz 2 mode a_in in
      let b := scalepz 2 mode b_in in
      [cadd a b; csub a b]
  | _ => []
  end.
(** dit4_fwdend2_1 : the addresses of one lane *)
Definition dit4_fwdend2_1_lane (mode : smode) (eo : bool) (x y : ptr) : lane C :=
  let z := if eo then y else x in
  Lane [z +! 0; z +! 1]
       [x +! 0; x +! 1]
       (dit4_fwdend2_1_fn mode).
Definition dit4_fwdend2_1 (mode : smode) (eo : bool) (x y : ptr) : prog C unit :=
  lblock (dit4_fwdend2_1_lane mode eo x y).

(** dit4_invcore : src/otfft_avxdit4.h:238-280, the arithmetic of one lane *)
Definition dit4_invcore_fn (v : list C) : list C :=
  match v with
  | [w1p_in; w2p_in; w3p_in; a; b_in; c_in; d_in] =>
      let w1p := cconj w1p_in in
      let w2p := cconj w2p_in in
      let w3p := cconj w3p_in in
      let b := cmul w1p b_in in
      let c := cmul w2p c_in in
      let d := cmul w3p d_in in
      let apc := cadd a c in
      let amc := csub a c in
      let bpd := cadd b d in
      let jbmd := jx (csub b d) in
      [cadd apc bpd; cadd amc jbmd; csub apc bpd; csub amc jbmd]
  | _ => []
  end.
(** dit4_invcore : the addresses of one lane *)
Definition dit4_invcore_lane (n s : nat) (x y W : ptr) (p q : nat) : lane C :=
  let N := n * s in
  let N0 := 0 in
  let N1 := N / 4 in
  let N2 := N1 * 2 in
  let N3 := N1 * 3 in
  let sp := s * p in
  let s4p := 4 * sp in
  let xq_sp := x +! (q + sp) in
  let yq_s4p := y +! (q + s4p) in
    Lane [twidT 4 N 1 W sp; twidT 4 N 2 W sp; twidT 4 N 3 W sp; yq_s4p +! (s * 0); yq_s4p +! (s * 1); yq_s4p +! (s *
    2); yq_s4p +! (s * 3)]
       [xq_sp +! N0; xq_sp +! N1; xq_sp +! N2; xq_sp +! N3]
       (dit4_invcore_fn).
Definition dit4_invcore (n s : nat) (x y W : ptr) : prog C unit :=
  let m := n / 4 in
  for_ m (fun p => for_step s 4 (fun q => vblock 4 (fun l => dit4_invcore_lane n s x y W p (q + l)))).

(** dit4_invcore1 : src/otfft_avxdit4.h:282-326, the arithmetic of one lane *)
Definition dit4_invcore1_fn (v : list C) : list C :=
  match v with
  | [w1p_in; w2p_in; w3p_in; a; b_in; c_in; d_in] =>
      let w1p := cconj w1p_in in
      let w2p := cconj w2p_in in
      let w3p := cconj w3p_in in
      let b := cmul w1p b_in in
      let c := cmul w2p c_in in
      let d := cmul w3p d_in in
      let apc := cadd a c in
      let amc := csub a c in
      let bpd := cadd b d in
      let jbmd := jx (csub b d) in
      [cadd apc bpd; cadd amc jbmd; csub apc bpd; csub amc jbmd]
  | _ => []
  end.
(** dit4_invcore1 : the addresses of one lane *)
Definition dit4_invcore1_lane (N : nat) (x y W : ptr) (p : nat) : lane C :=
  let N0 := 0 in
  let N1 := N / 4 in
  let N2 := N1 * 2 in
  let N3 := N1 * 3 in
  let x_p := x +! p in
  let y_4p := y +! (4 * p) in
  Lane [twid 4 N 1 W p; twid 4 N 2 W p; twid 4 N 3 W p; y_4p +! 0; y_4p +! (0 + 1); y_4p +! 2; y_4p +! (2 + 1)]
       [x_p +! N0; x_p +! N1; x_p +! N2; x_p +! N3]
       (dit4_invcore1_fn).
Definition dit4_invcore1 (N : nat) (x y W : ptr) : prog C unit :=
  let N1 := N / 4 in
  for_step N1 2 (fun p => vblock 2 (fun l => dit4_invcore1_lane N x y W (p + l))).

(** dit4_invend4 : src/otfft_avxdit4.h:334-358, the arithmetic of one lane *)
Definition dit4_invend4_fn (N : nat) (mode : smode) (v : list C) : list C :=
  match v with
  | [a_in; b_in; c_in; d_in] =>
      let a := scalepz N mode a_in in
      let b := scalepz N mode b_in in
      let c := scalepz N mode c_in in
      let d := scalepz N mode d_in in
      let apc := cadd a c in
      let amc := csub a c in
      let bpd := cadd b d in
      let jbmd := jx (csub b d) in
      [cadd apc bpd; cadd amc jbmd; csub apc bpd; csub amc jbmd]
  | _ => []
  end.
(** dit4_invend4 : the addresses of one lane *)
Definition dit4_invend4_lane (mode : smode) (s : nat) (eo : bool) (x y : ptr) (q : nat) : lane C :=
  let N := 4 * s in
  let z := if eo then y else x in
  let xq := x +! q in
  let zq := z +! q in
  Lane [zq +! (s * 0); zq +! (s * 1); zq +! (s * 2); zq +! (s * 3)]
       [xq +! (s * 0); xq +! (s * 1); xq +! (s * 2); xq +! (s * 3)]
       (dit4_invend4_fn N mode).
Definition dit4_invend4 (mode : smode) (s : nat) (eo : bool) (x y : ptr) : prog C unit :=
  for_step s 2 (fun q => vblock 2 (fun l => dit4_invend4_lane mode s eo x y (q + l))).

(** dit4_invend4_1 : src/otfft_avxdit4.h:360-379, the arithmetic of one lane *)
Definition dit4_invend4_1_fn (mode : smode) (v : list C) : list C :=
  match v with
  | [a_in; b_in; c_in; d_in] =>
      let a := scalepz 4 mode a_in in
      let b := scalepz 4 mode b_in in
      let c := scalepz 4 mode c_in in
      let d := scalepz 4 mode d_in in
      let apc := cadd a c in
      let amc := csub a c in
      let bpd := cadd b d in
      let jbmd := jx (csub b d) in
      [cadd apc bpd; cadd amc jbmd; csub apc bpd; csub amc jbmd]
  | _ => []
  end.
(** dit4_invend4_1 : the addresses of one lane *)
Definition dit4_invend4_1_lane (mode : smode) (eo : bool) (x y : ptr) : lane C :=
  let z := if eo then y else x in
  Lane [z +! 0; z +! 1; z +! 2; z +! 3]
       [x +! 0; x +! 1; x +! 2; x +! 3]
       (dit4_invend4_1_fn mode).
Definition dit4_invend4_1 (mode : smode) (eo : bool) (x y : ptr) : prog C unit :=
  lblock (dit4_invend4_1_lane mode eo x y).

(** dit4_invend2 : src/otfft_avxdit4.h:383-399, the arithmetic of one lane *)
Definition dit4_invend2_fn (N : nat) (mode : smode) (v : list C) : list C :=
  match v with
  | [a_in; b_in] =>
      let a := scalepz N mode a_in in
      let b := scalepz N mode b_in in
      [cadd a b; csub a b]
  | _ => []
  end.
(** dit4_invend2 : the addresses of one lane *)
Definition dit4_invend2_lane (mode : smode) (s : nat) (eo : bool) (x y : ptr) (q : nat) : lane C :=
  let N := 2 * s in
  let z := if eo then y else x in
  let xq := x +! q in
  let zq := z +! q in
  Lane [zq +! 0; zq +! s]
       [xq +! 0; xq +! s]
       (dit4_invend2_fn N mode).
Definition dit4_invend2 (mode : smode) (s : nat) (eo : bool) (x y : ptr) : prog C unit :=
  for_step s 2 (fun q => vblock 2 (fun l => dit4_invend2_lane mode s eo x y (q + l))).

(** dit4_invend2_1 : src/otfft_avxdit4.h:401-412, the arithmetic of one lane *)
Definition dit4_invend2_1_fn (mode : smode) (v : list C) : list C :=
  match v with
  | [a_in; b_in] =>
      let a := scalepz 2 mode a_in in
      let b := scalepz 2 mode b_in in
      [cadd a b; csub a b]
  | _ => []
  end.
(** dit4_invend2_1 : the addresses of one lane *)
Definition dit4_invend2_1_lane (mode : smode) (eo : bool) (x y : ptr) : lane C :=
  let z := if eo then y else x in
  Lane [z +! 0; z +! 1]
       [x +! 0; x +! 1]
       (dit4_invend2_1_fn mode).
Definition dit4_invend2_1 (mode : smode) (eo : bool) (x y : ptr) : prog C unit :=
  lblock (dit4_invend2_1_lane mode eo x y).

(** dit4o_fwdcore : src/otfft_avxdit4omp.h:23-61, the arithmetic of one lane *)
Definition dit4o_fwdcore_fn (v : list C) : list C :=
  match v with
  | [w1p; a; b_in; c_in; d_in] =>
      let w2p := cmul w1p w1p in
      let w3p := cmul w1p w2p in
      let b := cmul w1p b_in in
      let c := cmul w2p c_in in
      let d := cmul w3p d_in in
      let apc := cadd a c in
      let amc := csub a c in
      let bpd := cadd b d in
      let jbmd := jx (csub b d) in
      [cadd apc bpd; csub amc jbmd; csub apc bpd; cadd amc jbmd]
  | _ => []
  end.
(** dit4o_fwdcore : the addresses of one lane *)
Definition dit4o_fwdcore_lane (n s : nat) (x y W : ptr) (p q : nat) : lane C :=
  let N := n * s in
  let N0 := 0 in
  let N1 := N / 4 in
  let N2 := N1 * 2 in
  let N3 := N1 * 3 in
  let sp := s * p in
  let s4p := 4 * sp in
  let xq_sp := x +! (q + sp) in
  let yq_s4p := y +! (q + s4p) in
  Lane [W +! sp; yq_s4p +! (s * 0); yq_s4p +! (s * 1); yq_s4p +! (s * 2); yq_s4p +! (s * 3)]
       [xq_sp +! N0; xq_sp +! N1; xq_sp +! N2; xq_sp +! N3]
       (dit4o_fwdcore_fn).
Definition dit4o_fwdcore (n s : nat) (x y W : ptr) : list (phase (V:=C)) :=
  let N := n * s in
  let N1 := N / 4 in
  let Ni := N1 / 4 in
  let h := s / 4 in
  [(Ni, fun i => vblock 4 (fun l => dit4o_fwdcore_lane n s x y W (i / h) ((i mod h) * 4 + l)))].

(** dit4o_fwdcore1 : src/otfft_avxdit4omp.h:63-108, the arithmetic of one lane *)
Definition dit4o_fwdcore1_fn (v : list C) : list C :=
  match v with
  | [w1p; a; b_in; c_in; d_in] =>
      let w2p := cmul w1p w1p in
      let w3p := cmul w1p w2p in
      let b := cmul w1p b_in in
      let c := cmul w2p c_in in
      let d := cmul w3p d_in in
      let apc := cadd a c in
      let amc := csub a c in
      let bpd := cadd b d in
      let jbmd := jx (csub b d) in
      [cadd apc bpd; csub amc jbmd; csub apc bpd; cadd amc jbmd]
  | _ => []
  end.
(** dit4o_fwdcore1 : the addresses of one lane *)
Definition dit4o_fwdcore1_lane (N : nat) (x y W : ptr) (p : nat) : lane C :=
  let N0 := 0 in
  let N1 := N / 4 in
  let N2 := N1 * 2 in
  let N3 := N1 * 3 in
  let x_p := x +! p in
  let y_4p := y +! (4 * p) in
  Lane [W +! p; y_4p +! 0; y_4p +! (0 + 1); y_4p +! 2; y_4p +! (2 + 1)]
       [x_p +! N0; x_p +! N1; x_p +! N2; x_p +! N3]
       (dit4o_fwdcore1_fn).
Definition dit4o_fwdcore1 (N : nat) (x y W : ptr) : list (phase (V:=C)) :=
  let N1 := N / 4 in
  [par_step N1 2 (fun p => vblock 2 (fun l => dit4o_fwdcore1_lane N x y W (p + l)))].

(** dit4o_fwdend4 : src/otfft_avxdit4omp.h:116-141, the arithmetic of one lane *)
Definition dit4o_fwdend4_fn (N : nat) (mode : smode) (v : list C) : list C :=
  match v with
  | [a_in; b_in; c_in; d_in] =>
      let a := scalepz N mode a_in in
      let b := scalepz N mode b_in in
      let c := scalepz N mode c_in in
      let d := scalepz N mode d_in in
      let apc := cadd a c in
      let amc := csub a c in
      let bpd := cadd b d in
      let jbmd := jx (csub b d) in
      [cadd apc bpd; csub amc jbmd; csub apc bpd; cadd amc jbmd]
  | _ => []
  end.
(** dit4o_fwdend4 : the addresses of one lane *)
Definition dit4o_fwdend4_lane (mode : smode) (s : nat) (eo : bool) (x y : ptr) (q : nat) : lane C :=
  let N := 4 * s in
  let z := if eo then y else x in
  let xq := x +! q in
  let zq := z +! q in
  Lane [zq +! (s * 0); zq +! (s * 1); zq +! (s * 2); zq +! (s * 3)]
       [xq +! (s * 0); xq +! (s * 1); xq +! (s * 2); xq +! (s * 3)]
       (dit4o_fwdend4_fn N mode).
Definition dit4o_fwdend4 (mode : smode) (s : nat) (eo : bool) (x y : ptr) : list (phase (V:=C)) :=
  [par_step s 2 (fun q => vblock 2 (fun l => dit4o_fwdend4_lane mode s eo x y (q + l)))].

(** dit4o_fwdend4_1 : src/otfft_avxdit4omp.h:143-165, the arithmetic of one lane *)
Definition dit4o_fwdend4_1_fn (mode : smode) (v : list C) : list C :=
  match v with
  | [a_in; b_in; c_in; d_in] =>
      let a := scalepz 4 mode a_in in
      let b := scalepz 4 mode b_in in
      let c := scalepz 4 mode c_in in
      let d := scalepz 4 mode d_in in
      let apc := cadd a c in
      let amc := csub a c in
      let bpd := cadd b d in
      let jbmd := jx (csub b d) in
      [cadd apc bpd; csub amc jbmd; csub apc bpd; cadd amc jbmd]
  | _ => []
  end.
(** dit4o_fwdend4_1 : the addresses of one lane *)
Definition dit4o_fwdend4_1_lane (mode : smode) (eo : bool) (x y : ptr) : lane C :=
  let z := if eo then y else x in
  Lane [z +! 0; z +! 1; z +! 2; z +! 3]
       [x +! 0; x +! 1; x +! 2; x +! 3]
       (dit4o_fwdend4_1_fn mode).
Definition dit4o_fwdend4_1 (mode : smode) (eo : bool) (x y : ptr) : list (phase (V:=C)) :=
  [single (lblock (dit4o_fwdend4_1_lane mode eo x y))].

(** dit4o_fwdend2 : src/otfft_avxdit4omp.h:169-186, the arithmetic of one lane *)
Definition dit4o_fwdend2_fn (N : nat) (mode : smode) (v : list C) : list C :=
  match v with
  | [a_in; b_in] =>
      let a := scalepz N mode a_in in
      let b := scalepz N mode b_in in
      [cadd a b; csub a b]
  | _ => []
  end.
(** dit4o_fwdend2 : the addresses of one lane *)
Definition dit4o_fwdend2_lane (mode : smode) (s : nat) (eo : bool) (x y : ptr) (q : nat) : lane C :=
  let N := 2 * s in
  let z := if eo then y else x in
  let xq := x +! q in
  let zq := z +! q in
  Lane [zq +! 0; zq +! s]
       [xq +! 0; xq +! s]
       (dit4o_fwdend2_fn N mode).
Definition dit4o_fwdend2 (mode : smode) (s : nat) (eo : bool) (x y : ptr) : list (phase (V:=C)) :=
  [par_step s 2 (fun q => vblock 2 (fun l => dit4o_fwdend2_lane mode s eo x y (q + l)))].

(** dit4o_fwdend2_1 : src/otfft_avxdit4omp.h:188-202, the arithmetic of one lane *)
Definition dit4o_fwdend2_1_fn (mode : smode) (v : list C) : list C :=
  match v with
  | [a_in; b_in] =>
      let a := scalepz 2 mode a_in in
      let b := scalepz 2 mode b_in in
      [cadd a b; csub a b]
  | _ => []
  end.
(** dit4o_fwdend2_1 : the addresses of one lane *)
Definition dit4o_fwdend2_1_lane (mode : smode) (eo : bool) (x y : ptr) : lane C :=
  let z := if eo then y else x in
  Lane [z +! 0; z +! 1]
       [x +! 0; x +! 1]
       (dit4o_fwdend2_1_fn mode).
Definition dit4o_fwdend2_1 (mode : smode) (eo : bool) (x y : ptr) : list (phase (V:=C)) :=
  [single (lblock (dit4o_fwdend2_1_lane mode eo x y))].

(** dit4o_invcore : src/otfft_avxdit4omp.h:240-279, the arithmetic of one lane *)
Definition dit4o_invcore_fn (v : list C) : list C :=
  match v with
  | [w1p_in; a; b_in; c_in; d_in] =>
      let w1p := cconj w1p_in in
      let w2p := cmul w1p w1p in
      let w3p := cmul w1p w2p in
      let b := cmul w1p b_in in
      let c := cmul w2p c_in in
      let d := cmul w3p d_in in
      let apc := cadd a c in
      let amc := csub a c in
      let bpd := cadd b d in
      let jbmd := jx (csub b d) in
      [cadd apc bpd; cadd amc jbmd; csub apc bpd; csub amc jbmd]
  | _ => []
  end.
(** dit4o_invcore : the addresses of one lane *)
Definition dit4o_invcore_lane (n s : nat) (x y W : ptr) (p q : nat) : lane C :=
  let N := n * s in
  let N0 := 0 in
  let N1 := N / 4 in
  let N2 := N1 * 2 in
  let N3 := N1 * 3 in
  let sp := s * p in
  let s4p := 4 * sp in
  let xq_sp := x +! (q + sp) in
  let yq_s4p := y +! (q + s4p) in
  Lane [W +! sp; yq_s4p +! (s * 0); yq_s4p +! (s * 1); yq_s4p +! (s * 2); yq_s4p +! (s * 3)]
       [xq_sp +! N0; xq_sp +! N1; xq_sp +! N2; xq_sp +! N3]
       (dit4o_invcore_fn).
Definition dit4o_invcore (n s : nat) (x y W : ptr) : list (phase (V:=C)) :=
  let N := n * s in
  let N1 := N / 4 in
  let Ni := N1 / 4 in
  let h := s / 4 in
  [(Ni, fun i => vblock 4 (fun l => dit4o_invcore_lane n s x y W (i / h) ((i mod h) * 4 + l)))].

(** dit4o_invcore1 : src/otfft_avxdit4omp.h:281-326, the arithmetic of one lane *)
Definition dit4o_invcore1_fn (v : list C) : list C :=
  match v with
  | [w1p_in; a; b_in; c_in; d_in] =>
      let w1p := cconj w1p_in in
      let w2p := cmul w1p w1p in
      let w3p := cmul w1p w2p in
      let b := cmul w1p b_in in
      let c := cmul w2p c_in in
      let d := cmul w3p d_in in
      let apc := cadd a c in
      let amc := csub a c in
      let bpd := cadd b d in
      let jbmd := jx (csub b d) in
      [cadd apc bpd; cadd amc jbmd; csub apc bpd; csub amc jbmd]
  | _ => []
  end.
(** dit4o_invcore1 : the addresses of one lane *)
Definition dit4o_invcore1_lane (N : nat) (x y W : ptr) (p : nat) : lane C :=
  let N0 := 0 in
  let N1 := N / 4 in
  let N2 := N1 * 2 in
  let N3 := N1 * 3 in
  let x_p := x +! p in
  let y_4p := y +! (4 * p) in
  Lane [W +! p; y_4p +! 0; y_4p +! (0 + 1); y_4p +! 2; y_4p +! (2 + 1)]
       [x_p +! N0; x_p +! N1; x_p +! N2; x_p +! N3]
       (dit4o_invcore1_fn).
Definition dit4o_invcore1 (N : nat) (x y W : ptr) : list (phase (V:=C)) :=
  let N1 := N / 4 in
  [par_step N1 2 (fun p => vblock 2 (fun l => dit4o_invcore1_lane N x y W (p + l)))].

(** dit4o_invend4 : src/otfft_avxdit4omp.h:334-359, the arithmetic of one lane *)
Definition dit4o_invend4_fn (N : nat) (mode : smode) (v : list C) : list C :=
  match v with
  | [a_in; b_in; c_in; d_in] =>
      let a := scalepz N mode a_in in
      let b := scalepz N mode b_in in
      let c := scalepz N mode c_in in
      let d := scalepz N mode d_in in
      let apc := cadd a c in
      let amc := csub a c in
      let bpd := cadd b d in
      let jbmd := jx (csub b d) in
      [cadd apc bpd; cadd amc jbmd; csub apc bpd; csub amc jbmd]
  | _ => []
  end.
(** dit4o_invend4 : the addresses of one lane *)
Definition dit4o_invend4_lane (mode : smode) (s : nat) (eo : bool) (x y : ptr) (q : nat) : lane C :=
  let N := 4 * s in
  let z := if eo then y else x in
  let xq := x +! q in
  let zq := z +! q in
  Lane [zq +! (s * 0); zq +! (s * 1); zq +! (s * 2); zq +! (s * 3)]
       [xq +! (s * 0); xq +! (s * 1); xq +! (s * 2); xq +! (s * 3)]
       (dit4o_invend4_fn N mode).
Definition dit4o_invend4 (mode : smode) (s : nat) (eo : bool) (x y : ptr) : list (phase (V:=C)) :=
  [par_step s 2 (fun q => vblock 2 (fun l => dit4o_invend4_lane mode s eo x y (q + l)))].

(** dit4o_invend4_1 : src/otfft_avxdit4omp.h:361-383, the arithmetic of one lane *)
Definition dit4o_invend4_1_fn (mode : smode) (v : list C) : list C :=
  match v with
  | [a_in; b_in; c_in; d_in] =>
      let a := scalepz 4 mode a_in in
      let b := scalepz 4 mode b_in in
      let c := scalepz 4 mode c_in in
      let d := scalepz 4 mode d_in in
      let apc := cadd a c in
      let amc := csub a c in
      let bpd := cadd b d in
      let jbmd := jx (csub b d) in
      [cadd apc bpd; cadd amc jbmd; csub apc bpd; csub amc jbmd]
  | _ => []
  end.
(** dit4o_invend4_1 : the addresses of one lane *)
Definition dit4o_invend4_1_lane (mode : smode) (eo : bool) (x y : ptr) : lane C :=
  let z := if eo then y else x in
  Lane [z +! 0; z +! 1; z +! 2; z +! 3]
       [x +! 0; x +! 1; x +! 2; x +! 3]
       (dit4o_invend4_1_fn mode).
Definition dit4o_invend4_1 (mode : smode) (eo : bool) (x y : ptr) : list (phase (V:=C)) :=
  [single (lblock (dit4o_invend4_1_lane mode eo x y))].

(** dit4o_invend2 : src/otfft_avxdit4omp.h:387-404, the arithmetic of one lane *)
Definition dit4o_invend2_fn (N : nat) (mode : smode) (v : list C) : list C :=
  match v with
  | [a_in; b_in] =>
      let a := scalepz N mode a_in in
      let b := scalepz N mode b_in in
      [cadd a b; csub a b]
  | _ => []
  end.
(** dit4o_invend2 : the addresses of one lane *)
Definition dit4o_invend2_lane (mode : smode) (s : nat) (eo : bool) (x y : ptr) (q : nat) : lane C :=
  let N := 2 * s in
  let z := if eo then y else x in
  let xq := x +! q in
  let zq := z +! q in
  Lane [zq +! 0; zq +! s]
       [xq +! 0; xq +! s]
       (dit4o_invend2_fn N mode).
Definition dit4o_invend2 (mode : smode) (s : nat) (eo : bool) (x y : ptr) : list (phase (V:=C)) :=
  [par_step s 2 (fun q => vblock 2 (fun l => dit4o_invend2_lane mode s eo x y (q + l)))].

(** dit4o_invend2_1 : src/otfft_avxdit4omp.h:406-420, the arithmetic of one lane *)
Definition dit4o_invend2_1_fn (mode : smode) (v : list C) : list C :=
  match v with
  | [a_in; b_in] =>
      let a := scalepz 2 mode a_in in
      let b := scalepz 2 mode b_in in
      [cadd a b; csub a b]
  | _ => []
  end.
(** dit4o_invend2_1 : the addresses of one lane *)
Definition dit4o_invend2_1_lane (mode : smode) (eo : bool) (x y : ptr) : lane C :=
  let z := if eo then y else x in
  Lane [z +! 0; z +! 1]
       [x +! 0; x +! 1]
       (dit4o_invend2_1_fn mode).
Definition dit4o_invend2_1 (mode : smode) (eo : bool) (x y : ptr) : list (phase (V:=C)) :=
  [single (lblock (dit4o_invend2_1_lane mode eo x y))].

End ModelDit4.
