(** * Butterflies: the arithmetic of one radix-r step on already loaded values *)

From Coq Require Import List.
From Verif Require Import Scalar.
Import ListNotations.
Local Open Scope C_scope.

Section Butterfly.
Context {Op : Ops}.

(** multiplication of outputs 1, 2, ... by twiddles: mulpz(w1p, .), mulpz(w2p, .), ... *)
Fixpoint tmul (ws zs : list C) : list C :=
  match ws, zs with
  | w :: ws', z :: zs' => (w * z) :: tmul ws' zs'
  | _, _ => zs
  end.
Definition twist (ws zs : list C) : list C :=
  match zs with z0 :: zs' => z0 :: tmul ws zs' | [] => [] end.

(** the radix-3/5 kernels multiply from the right: (...)*w1p *)
Fixpoint tmulr (ws zs : list C) : list C :=
  match ws, zs with
  | w :: ws', z :: zs' => (z * w) :: tmulr ws' zs'
  | _, _ => zs
  end.
Definition twistr (ws zs : list C) : list C :=
  match zs with z0 :: zs' => z0 :: tmulr ws zs' | [] => [] end.

(** fwdend2/invend2 : src/otfft_mixedradix.h:46-66, 603-623 *)
Definition b2 (v : list C) : list C :=
  match v with [a; b] => [a + b; a - b] | _ => [] end.

(** fwdend4 : src/otfft_mixedradix.h:114-125 *)
Definition f4 (v : list C) : list C :=
  match v with
  | [a; b; c; d] =>
      let apc := a + c in let amc := a - c in let bpd := b + d in let jbmd := jx (b - d) in
      [apc + bpd; amc - jbmd; apc - bpd; amc + jbmd]
  | _ => [] end.
(** invend4 : src/otfft_mixedradix.h:671-682 *)
Definition i4 (v : list C) : list C :=
  match v with
  | [a; b; c; d] =>
      let apc := a + c in let amc := a - c in let bpd := b + d in let jbmd := jx (b - d) in
      [apc + bpd; amc + jbmd; apc - bpd; amc - jbmd]
  | _ => [] end.

(** fwdend8 : src/otfft_mixedradix.h:210-241 *)
Definition f8 (v : list C) : list C :=
  match v with
  | [x0; x1; x2; x3; x4; x5; x6; x7] =>
      let a04 := x0 + x4 in let s04 := x0 - x4 in
      let a26 := x2 + x6 in let js26 := jx (x2 - x6) in
      let a15 := x1 + x5 in let s15 := x1 - x5 in
      let a37 := x3 + x7 in let js37 := jx (x3 - x7) in
      let a04_p1_a26 := a04 + a26 in
      let s04_mj_s26 := s04 - js26 in
      let a04_m1_a26 := a04 - a26 in
      let s04_pj_s26 := s04 + js26 in
      let a15_p1_a37 := a15 + a37 in
      let w8_s15_mj_s37 := w8x (s15 - js37) in
      let j_a15_m1_a37 := jx (a15 - a37) in
      let v8_s15_pj_s37 := v8x (s15 + js37) in
      [a04_p1_a26 + a15_p1_a37; s04_mj_s26 + w8_s15_mj_s37;
       a04_m1_a26 - j_a15_m1_a37; s04_pj_s26 - v8_s15_pj_s37;
       a04_p1_a26 - a15_p1_a37; s04_mj_s26 - w8_s15_mj_s37;
       a04_m1_a26 + j_a15_m1_a37; s04_pj_s26 + v8_s15_pj_s37]
  | _ => [] end.
(** invend8 : src/otfft_mixedradix.h:767-798 *)
Definition i8 (v : list C) : list C :=
  match v with
  | [x0; x1; x2; x3; x4; x5; x6; x7] =>
      let a04 := x0 + x4 in let s04 := x0 - x4 in
      let a26 := x2 + x6 in let js26 := jx (x2 - x6) in
      let a15 := x1 + x5 in let s15 := x1 - x5 in
      let a37 := x3 + x7 in let js37 := jx (x3 - x7) in
      let a04_p1_a26 := a04 + a26 in
      let s04_mj_s26 := s04 - js26 in
      let a04_m1_a26 := a04 - a26 in
      let s04_pj_s26 := s04 + js26 in
      let a15_p1_a37 := a15 + a37 in
      let w8_s15_mj_s37 := w8x (s15 - js37) in
      let j_a15_m1_a37 := jx (a15 - a37) in
      let v8_s15_pj_s37 := v8x (s15 + js37) in
      [a04_p1_a26 + a15_p1_a37; s04_pj_s26 + v8_s15_pj_s37;
       a04_m1_a26 + j_a15_m1_a37; s04_mj_s26 - w8_s15_mj_s37;
       a04_p1_a26 - a15_p1_a37; s04_pj_s26 - v8_s15_pj_s37;
       a04_m1_a26 - j_a15_m1_a37; s04_mj_s26 + w8_s15_mj_s37]
  | _ => [] end.

(** radix 5, w1 the primitive root: src/otfft_mixedradix.h:394-408 *)
Definition b5 (w1 : C) (v : list C) : list C :=
  match v with
  | [a; b; c; d; e] =>
      let w2 := w1 * w1 in let w3 := w1 * w2 in let w4 := w2 * w2 in
      [a + b + c + d + e;
       a + w1 * b + w2 * c + w3 * d + w4 * e;
       a + w2 * b + w4 * c + w1 * d + w3 * e;
       a + w3 * b + w1 * c + w4 * d + w2 * e;
       a + w4 * b + w3 * c + w2 * d + w1 * e]
  | _ => [] end.
(** radix 3 : src/otfft_mixedradix.h:455-464 *)
Definition b3 (w1 : C) (v : list C) : list C :=
  match v with
  | [a; b; c] =>
      let w2 := w1 * w1 in
      [a + b + c; a + w1 * b + w2 * c; a + w2 * b + w1 * c]
  | _ => [] end.

End Butterfly.
