(** * Mixed-radix FFT: src/otfft_mixedradix.h

    [x], [y], [W] are the arrays passed to the C++ functions.  Loop-invariant twiddle loads that the
    code performs once before the q-loop are modelled inside each block (the loads are from the read-only
    table, so the values are the same).  Each function is modelled branch by branch (s >= 2: two SIMD lanes
    per iteration; otherwise one lane). *)

From Coq Require Import List Arith ZArith Bool.
From Verif Require Import Scalar Mem Omp Lanes Butterfly.
Import ListNotations.
Local Open Scope C_scope.

Section Mixed.
Context {Op : Ops}.
Notation prog := (prog C).
Notation lane := (lane C).
Notation phase := (phase (V:=C)).

(** ** Lane arithmetic of the core butterflies: twiddle preparation + butterfly + twiddle multiplication *)

(** [wp; a; b] : 84-87 (s >= 2), 94-98 (s = 1); inverse 641-644, 651-655 *)
Definition core2_f (v : list C) : list C :=
  match v with wp :: xs => twist [wp] (b2 xs) | _ => [] end.

(** [w1p; w2p; w3p; a; b; c; d], s >= 2 : 162-173 *)
Definition fwdcore4_fv (v : list C) : list C :=
  match v with w1p :: w2p :: w3p :: xs => twist [w1p; w2p; w3p] (f4 xs) | _ => [] end.
(** s = 1, twiddles from W[p] : 181-194 *)
Definition fwdcore4_fs (v : list C) : list C :=
  match v with
  | w :: xs => let w1p := w in let w2p := w1p * w1p in let w3p := w1p * w2p in
               twist [w1p; w2p; w3p] (f4 xs)
  | _ => [] end.
(** s >= 2 : 299-303,307-338 *)
Definition fwdcore8_fv (v : list C) : list C :=
  match v with
  | w1p :: w2p :: w3p :: xs =>
      let w4p := w2p * w2p in let w5p := w2p * w3p in let w6p := w3p * w3p in let w7p := w3p * w4p in
      twist [w1p; w2p; w3p; w4p; w5p; w6p; w7p] (f8 xs)
  | _ => [] end.
(** s = 1 : 346-383 *)
Definition fwdcore8_fs (v : list C) : list C :=
  match v with
  | w :: xs =>
      let w1p := w in let w2p := w1p * w1p in let w3p := w1p * w2p in
      let w4p := w2p * w2p in let w5p := w2p * w3p in let w6p := w3p * w3p in let w7p := w3p * w4p in
      twist [w1p; w2p; w3p; w4p; w5p; w6p; w7p] (f8 xs)
  | _ => [] end.
(** [w1p; w2p; w3p; a; b; c; d], s >= 2 : 719-730 *)
Definition invcore4_fv (v : list C) : list C :=
  match v with w1p :: w2p :: w3p :: xs => twist [w1p; w2p; w3p] (i4 xs) | _ => [] end.
(** s = 1, twiddles from W[p] conjugated : 738-751 *)
Definition invcore4_fs (v : list C) : list C :=
  match v with
  | w :: xs => let w1p := cconj w in let w2p := w1p * w1p in let w3p := w1p * w2p in
               twist [w1p; w2p; w3p] (i4 xs)
  | _ => [] end.
(** s >= 2 : 854-860,864-895 *)
Definition invcore8_fv (v : list C) : list C :=
  match v with
  | w1p :: w2p :: w3p :: xs =>
      let w4p := w2p * w2p in let w5p := w2p * w3p in let w6p := w3p * w3p in let w7p := w3p * w4p in
      twist [w1p; w2p; w3p; w4p; w5p; w6p; w7p] (i8 xs)
  | _ => [] end.
(** s = 1 : 903-940 *)
Definition invcore8_fs (v : list C) : list C :=
  match v with
  | w :: xs =>
      let w1p := cconj w in let w2p := w1p * w1p in let w3p := w1p * w2p in
      let w4p := w2p * w2p in let w5p := w2p * w3p in let w6p := w3p * w3p in let w7p := w3p * w4p in
      twist [w1p; w2p; w3p; w4p; w5p; w6p; w7p] (i8 xs)
  | _ => [] end.

(** radix 5, twiddles [w1] for the ends and [w1; w1p] for the cores : 394-408, 423-446 *)
Definition end5_f (v : list C) : list C := match v with w1 :: xs => b5 w1 xs | _ => [] end.
Definition core5_f (v : list C) : list C :=
  match v with
  | w1 :: w1p :: xs =>
      let w2p := w1p * w1p in let w3p := w1p * w2p in let w4p := w2p * w2p in
      twistr [w1p; w2p; w3p; w4p] (b5 w1 xs)
  | _ => [] end.
(** radix 3 : 455-464, 476-491 *)
Definition end3_f (v : list C) : list C := match v with w1 :: xs => b3 w1 xs | _ => [] end.
Definition core3_f (v : list C) : list C :=
  match v with
  | w1 :: w1p :: xs => let w2p := w1p * w1p in twistr [w1p; w2p] (b3 w1 xs)
  | _ => [] end.

(** ** Forward functions, single thread *)

(** fwdend2 : 46-66 *)
Definition fwdend2 (s : nat) (eo : bool) (x y : ptr) : prog unit :=
  let z := if eo then y else x in
  if 2 <=? s
  then for_step s 2 (fun q => vblock 2 (fun l => lane_end 2 s x z x [] b2 (q + l)%nat))
  else lblock (lane_end 2 1 x z x [] b2 0).
(** fwdcore2 : 68-101 *)
Definition fwdcore2 (n s : nat) (x y W : ptr) : prog unit :=
  let m := (n / 2)%nat in let N := (n * s)%nat in let N1 := (N / 2)%nat in
  if 2 <=? s
  then for_ m (fun p => let sp := (s * p)%nat in
         for_step s 2 (fun q => vblock 2 (fun l => lane_core 2 N1 s x y W [sp]%nat core2_f sp (q + l)%nat)))
  else for_ m (fun p => lblock (lane_core 2 N1 1 x y W [p] core2_f p 0)).

(** fwdend4 : 105-141 *)
Definition fwdend4 (s : nat) (eo : bool) (x y : ptr) : prog unit :=
  let z := if eo then y else x in
  if 2 <=? s
  then for_step s 2 (fun q => vblock 2 (fun l => lane_end 4 s x z x [] f4 (q + l)%nat))
  else lblock (lane_end 4 1 x z x [] f4 0).
(** fwdcore4 : 143-198 *)
Definition fwdcore4 (n s : nat) (x y W : ptr) : prog unit :=
  let m := (n / 4)%nat in let N := (n * s)%nat in let N1 := (N / 4)%nat in
  if 2 <=? s
  then for_ m (fun p => let sp := (s * p)%nat in
         for_step s 2 (fun q => vblock 2 (fun l => lane_core 4 N1 s x y W [1*sp; 2*sp; 3*sp]%nat fwdcore4_fv sp (q + l)%nat)))
  else for_ m (fun p => lblock (lane_core 4 N1 1 x y W [p] fwdcore4_fs p 0)).

(** fwdend8 : 202-278 *)
Definition fwdend8 (s : nat) (eo : bool) (x y : ptr) : prog unit :=
  let z := if eo then y else x in
  if 2 <=? s
  then for_step s 2 (fun q => vblock 2 (fun l => lane_end 8 s x z x [] f8 (q + l)%nat))
  else lblock (lane_end 8 1 x z x [] f8 0).
(** fwdcore8 : 280-387 *)
Definition fwdcore8 (n s : nat) (x y W : ptr) : prog unit :=
  let m := (n / 8)%nat in let N := (n * s)%nat in let N1 := (N / 8)%nat in
  if 2 <=? s
  then for_ m (fun p => let sp := (s * p)%nat in
         for_step s 2 (fun q => vblock 2 (fun l => lane_core 8 N1 s x y W [1*sp; 2*sp; 3*sp]%nat fwdcore8_fv sp (q + l)%nat)))
  else for_ m (fun p => lblock (lane_core 8 N1 1 x y W [p] fwdcore8_fs p 0)).

(** fwdend5 : 391-411 *)
Definition fwdend5 (s : nat) (eo : bool) (x y W : ptr) : prog unit :=
  let z := if eo then y else x in
  for_ s (fun q => lblock (lane_end 5 s x z W [s]%nat end5_f q)).
(** fwdcore5 : 413-448 *)
Definition fwdcore5 (n s : nat) (x y W : ptr) : prog unit :=
  let N := (n * s)%nat in let m := (n / 5)%nat in let N1 := (N / 5)%nat in
  for_ m (fun p => let sp := (s * p)%nat in
    for_ s (fun q => lblock (lane_core 5 N1 s x y W [N1; sp]%nat core5_f sp q))).

(** fwdend3 : 452-466 *)
Definition fwdend3 (s : nat) (eo : bool) (x y W : ptr) : prog unit :=
  let z := if eo then y else x in
  for_ s (fun q => lblock (lane_end 3 s x z W [s]%nat end3_f q)).
(** fwdcore3 : 468-493 *)
Definition fwdcore3 (n s : nat) (x y W : ptr) : prog unit :=
  let N := (n * s)%nat in let m := (n / 3)%nat in let N1 := (N / 3)%nat in
  for_ m (fun p => let sp := (s * p)%nat in
    for_ s (fun q => lblock (lane_core 3 N1 s x y W [N1; sp]%nat core3_f sp q))).

(** the search for the next factor: while (n%k != 0) { if (k*k > n) { k = n; break; } k += 2; } : 504-508, 1061-1065,
    1640-1644, 2224-2228.  [None]: the search did not finish within [fuel] steps or k*k overflowed. *)
Fixpoint find_factor (fuel k n : nat) : option nat :=
  match fuel with
  | O => None
  | S fuel' =>
      if n mod k =? 0 then Some k
      else if mul_ok k k then (if n <? k * k then Some n else find_factor fuel' (k + 2) n)%nat
      else None
  end.

(** z = 0; for (j = 0; j < k; j++) { a = x[..]; wij = W[..(i*j)%k..]; z = z + a*wij; } : 512-517, 532-537 *)
Fixpoint any_acc (i k : nat) (xa wa : nat -> ptr) (j : nat) : prog C :=
  match j with
  | O => Ret c0
  | S j' => z <- any_acc i k xa wa j' ;;
            a <- load (xa j') ;;
            ij <- imul i j' ;;
            wij <- load (wa (ij mod k)) ;;
            Ret (z + a * wij)
  end.

(** fwdfftany, body of the q-loop when k == n : 511-519 *)
Definition fwdany_end_body (k s : nat) (x y W : ptr) (q : nat) : prog unit :=
  let N := (k * s)%nat in
  for_ k (fun i =>
    z <- any_acc i k (fun j => x +! (q + s * j)) (fun e => W +! (s * e)) k ;;
    store (y +! (q + s * i)) z).
(** fwdfftany, body of the (p,q)-loop otherwise : 528-541 *)
Definition fwdany_core_body (k m s : nat) (x y W : ptr) (p q : nat) : prog unit :=
  let N := (m * k * s)%nat in
  let ms := (m * s)%nat in let sp := (s * p)%nat in
  let q_sp := (q + sp)%nat in let q_spk := (q + sp * k)%nat in
  for_ k (fun i =>
    z <- any_acc i k (fun j => x +! (q_sp + ms * j)) (fun e => W +! (ms * e)) k ;;
    wip <- load (W +! (i * sp)) ;;
    store (y +! (q_spk + s * i)) (z * wip)).
(** if (!eo) for (p = 0; p < N; p++) x[p] = y[p] : 521, 1078 *)
Definition copy_body (x y : ptr) (p : nat) : prog unit := lblock (Lane [y +! p] [x +! p] (fun v => v)).
(** fwdfftany : 499-545 *)
Fixpoint fwdfftany (fuel r n s : nat) (eo : bool) (x y W : ptr) : prog unit :=
  match fuel with
  | O => UB
  | S fuel' =>
      let N := (n * s)%nat in
      match find_factor n r n with
      | None => UB
      | Some k =>
          if k =? n then
            for_ s (fun q => fwdany_end_body k s x y W q) ;;;
            (if eo then skip else for_ N (copy_body x y))
          else
            let m := (n / k)%nat in
            for_ m (fun p => for_ s (fun q => fwdany_core_body k m s x y W p q)) ;;;
            fwdfftany fuel' k m (k * s) (negb eo) y x W
      end
  end.

(** fwdfft : 551-597 *)
Fixpoint fwdfft (fuel n s : nat) (eo : bool) (x y W : ptr) : prog unit :=
  match fuel with
  | O => UB
  | S fuel' =>
      let N := (n * s)%nat in
      if N <? 2 then skip
      else if n mod 8 =? 0 then
        if n =? 8 then fwdend8 s eo x y
        else fwdcore8 n s x y W ;;; fwdfft fuel' (n / 8) (8 * s) (negb eo) y x W
      else if n mod 4 =? 0 then
        if n =? 4 then fwdend4 s eo x y
        else fwdcore4 n s x y W ;;; fwdfft fuel' (n / 4) (4 * s) (negb eo) y x W
      else if n mod 2 =? 0 then
        if n =? 2 then fwdend2 s eo x y
        else fwdcore2 n s x y W ;;; fwdfft fuel' (n / 2) (2 * s) (negb eo) y x W
      else if n mod 5 =? 0 then
        if n =? 5 then fwdend5 s eo x y W
        else fwdcore5 n s x y W ;;; fwdfft fuel' (n / 5) (5 * s) (negb eo) y x W
      else if n mod 3 =? 0 then
        if n =? 3 then fwdend3 s eo x y W
        else fwdcore3 n s x y W ;;; fwdfft fuel' (n / 3) (3 * s) (negb eo) y x W
      else fwdfftany fuel' 7 n s eo x y W
  end.

(** ** Inverse functions, single thread *)

(** invend2 : 603-623 *)
Definition invend2 (s : nat) (eo : bool) (x y : ptr) : prog unit :=
  let z := if eo then y else x in
  if 2 <=? s
  then for_step s 2 (fun q => vblock 2 (fun l => lane_end 2 s x z x [] b2 (q + l)%nat))
  else lblock (lane_end 2 1 x z x [] b2 0).
(** invcore2 : 625-658 *)
Definition invcore2 (n s : nat) (x y W : ptr) : prog unit :=
  let m := (n / 2)%nat in let N := (n * s)%nat in let N1 := (N / 2)%nat in
  if 2 <=? s
  then for_ m (fun p => let sp := (s * p)%nat in
         for_step s 2 (fun q => vblock 2 (fun l => lane_core 2 N1 s x y W [N - sp]%nat core2_f sp (q + l)%nat)))
  else for_ m (fun p => lblock (lane_core 2 N1 1 x y W [N - p]%nat core2_f p 0)).

(** invend4 : 662-698 *)
Definition invend4 (s : nat) (eo : bool) (x y : ptr) : prog unit :=
  let z := if eo then y else x in
  if 2 <=? s
  then for_step s 2 (fun q => vblock 2 (fun l => lane_end 4 s x z x [] i4 (q + l)%nat))
  else lblock (lane_end 4 1 x z x [] i4 0).
(** invcore4 : 700-755 *)
Definition invcore4 (n s : nat) (x y W : ptr) : prog unit :=
  let m := (n / 4)%nat in let N := (n * s)%nat in let N1 := (N / 4)%nat in
  if 2 <=? s
  then for_ m (fun p => let sp := (s * p)%nat in
         for_step s 2 (fun q => vblock 2 (fun l => lane_core 4 N1 s x y W [N - 1*sp; N - 2*sp; N - 3*sp]%nat invcore4_fv sp (q + l)%nat)))
  else for_ m (fun p => lblock (lane_core 4 N1 1 x y W [p] invcore4_fs p 0)).

(** invend8 : 759-835 *)
Definition invend8 (s : nat) (eo : bool) (x y : ptr) : prog unit :=
  let z := if eo then y else x in
  if 2 <=? s
  then for_step s 2 (fun q => vblock 2 (fun l => lane_end 8 s x z x [] i8 (q + l)%nat))
  else lblock (lane_end 8 1 x z x [] i8 0).
(** invcore8 : 837-944 *)
Definition invcore8 (n s : nat) (x y W : ptr) : prog unit :=
  let m := (n / 8)%nat in let N := (n * s)%nat in let N1 := (N / 8)%nat in
  if 2 <=? s
  then for_ m (fun p => let sp := (s * p)%nat in
         for_step s 2 (fun q => vblock 2 (fun l => lane_core 8 N1 s x y W [N - 1*sp; N - 2*sp; N - 3*sp]%nat invcore8_fv sp (q + l)%nat)))
  else for_ m (fun p => lblock (lane_core 8 N1 1 x y W [p] invcore8_fs p 0)).

(** invend5 : 948-968 *)
Definition invend5 (s : nat) (eo : bool) (x y W : ptr) : prog unit :=
  let z := if eo then y else x in
  for_ s (fun q => lblock (lane_end 5 s x z W [4 * s]%nat end5_f q)).
(** invcore5 : 970-1005 *)
Definition invcore5 (n s : nat) (x y W : ptr) : prog unit :=
  let N := (n * s)%nat in let m := (n / 5)%nat in let N1 := (N / 5)%nat in
  for_ m (fun p => let sp := (s * p)%nat in
    for_ s (fun q => lblock (lane_core 5 N1 s x y W [N1 * 4; N - sp]%nat core5_f sp q))).

(** invend3 : 1009-1023 *)
Definition invend3 (s : nat) (eo : bool) (x y W : ptr) : prog unit :=
  let z := if eo then y else x in
  for_ s (fun q => lblock (lane_end 3 s x z W [2 * s]%nat end3_f q)).
(** invcore3 : 1025-1050 *)
Definition invcore3 (n s : nat) (x y W : ptr) : prog unit :=
  let N := (n * s)%nat in let m := (n / 3)%nat in let N1 := (N / 3)%nat in
  for_ m (fun p => let sp := (s * p)%nat in
    for_ s (fun q => lblock (lane_core 3 N1 s x y W [N1 * 2; N - sp]%nat core3_f sp q))).

(** invfftany, body of the q-loop when k == n : 1068-1076 *)
Definition invany_end_body (k s : nat) (x y W : ptr) (q : nat) : prog unit :=
  let N := (k * s)%nat in
  for_ k (fun i =>
    z <- any_acc i k (fun j => x +! (q + s * j)) (fun e => W +! (N - s * e)) k ;;
    store (y +! (q + s * i)) z).
(** invfftany, body of the (p,q)-loop otherwise : 1085-1098 *)
Definition invany_core_body (k m s : nat) (x y W : ptr) (p q : nat) : prog unit :=
  let N := (m * k * s)%nat in
  let ms := (m * s)%nat in let sp := (s * p)%nat in
  let q_sp := (q + sp)%nat in let q_spk := (q + sp * k)%nat in
  for_ k (fun i =>
    z <- any_acc i k (fun j => x +! (q_sp + ms * j)) (fun e => W +! (N - ms * e)) k ;;
    wip <- load (W +! (N - i * sp)) ;;
    store (y +! (q_spk + s * i)) (z * wip)).
(** invfftany : 1056-1102 *)
Fixpoint invfftany (fuel r n s : nat) (eo : bool) (x y W : ptr) : prog unit :=
  match fuel with
  | O => UB
  | S fuel' =>
      let N := (n * s)%nat in
      match find_factor n r n with
      | None => UB
      | Some k =>
          if k =? n then
            for_ s (fun q => invany_end_body k s x y W q) ;;;
            (if eo then skip else for_ N (copy_body x y))
          else
            let m := (n / k)%nat in
            for_ m (fun p => for_ s (fun q => invany_core_body k m s x y W p q)) ;;;
            invfftany fuel' k m (k * s) (negb eo) y x W
      end
  end.

(** invfft : 1108-1154 *)
Fixpoint invfft (fuel n s : nat) (eo : bool) (x y W : ptr) : prog unit :=
  match fuel with
  | O => UB
  | S fuel' =>
      let N := (n * s)%nat in
      if N <? 2 then skip
      else if n mod 8 =? 0 then
        if n =? 8 then invend8 s eo x y
        else invcore8 n s x y W ;;; invfft fuel' (n / 8) (8 * s) (negb eo) y x W
      else if n mod 4 =? 0 then
        if n =? 4 then invend4 s eo x y
        else invcore4 n s x y W ;;; invfft fuel' (n / 4) (4 * s) (negb eo) y x W
      else if n mod 2 =? 0 then
        if n =? 2 then invend2 s eo x y
        else invcore2 n s x y W ;;; invfft fuel' (n / 2) (2 * s) (negb eo) y x W
      else if n mod 5 =? 0 then
        if n =? 5 then invend5 s eo x y W
        else invcore5 n s x y W ;;; invfft fuel' (n / 5) (5 * s) (negb eo) y x W
      else if n mod 3 =? 0 then
        if n =? 3 then invend3 s eo x y W
        else invcore3 n s x y W ;;; invfft fuel' (n / 3) (3 * s) (negb eo) y x W
      else invfftany fuel' 7 n s eo x y W
  end.

(** ** Forward functions, executed by a team of threads *)

(** fwdend2p : 1160-1184 *)
Definition fwdend2p (s : nat) (eo : bool) (x y : ptr) : phase :=
  let z := if eo then y else x in
  if 2 <=? s
  then par_step s 2 (fun q => vblock 2 (fun l => lane_end 2 s x z x [] b2 (q + l)%nat))
  else single (lblock (lane_end 2 1 x z x [] b2 0)).
(** fwdcore2p : 1186-1221 *)
Definition fwdcore2p (n s : nat) (x y W : ptr) : phase :=
  let m := (n / 2)%nat in let N := (n * s)%nat in let N1 := (N / 2)%nat in
  if 2 <=? s
  then ((N / 4)%nat, fun i =>
         let p := (i / (s / 2))%nat in let q := (i mod (s / 2) * 2)%nat in let sp := (s * p)%nat in
         vblock 2 (fun l => lane_core 2 N1 s x y W [sp]%nat core2_f sp (q + l)%nat))
  else (m, fun p => lblock (lane_core 2 N1 1 x y W [p] core2_f p 0)).

(** fwdend4p : 1225-1265 *)
Definition fwdend4p (s : nat) (eo : bool) (x y : ptr) : phase :=
  let z := if eo then y else x in
  if 2 <=? s
  then par_step s 2 (fun q => vblock 2 (fun l => lane_end 4 s x z x [] f4 (q + l)%nat))
  else single (lblock (lane_end 4 1 x z x [] f4 0)).
(** fwdcore4p : 1267-1324 *)
Definition fwdcore4p (n s : nat) (x y W : ptr) : phase :=
  let m := (n / 4)%nat in let N := (n * s)%nat in let N1 := (N / 4)%nat in
  if 2 <=? s
  then ((N / 8)%nat, fun i =>
         let p := (i / (s / 2))%nat in let q := (i mod (s / 2) * 2)%nat in let sp := (s * p)%nat in
         vblock 2 (fun l => lane_core 4 N1 s x y W [1*sp; 2*sp; 3*sp]%nat fwdcore4_fv sp (q + l)%nat))
  else (m, fun p => lblock (lane_core 4 N1 1 x y W [p] fwdcore4_fs p 0)).

(** fwdend8p : 1328-1408 *)
Definition fwdend8p (s : nat) (eo : bool) (x y : ptr) : phase :=
  let z := if eo then y else x in
  if 2 <=? s
  then par_step s 2 (fun q => vblock 2 (fun l => lane_end 8 s x z x [] f8 (q + l)%nat))
  else single (lblock (lane_end 8 1 x z x [] f8 0)).
(** fwdcore8p : 1410-1519 *)
Definition fwdcore8p (n s : nat) (x y W : ptr) : phase :=
  let m := (n / 8)%nat in let N := (n * s)%nat in let N1 := (N / 8)%nat in
  if 2 <=? s
  then ((N / 16)%nat, fun i =>
         let p := (i / (s / 2))%nat in let q := (i mod (s / 2) * 2)%nat in let sp := (s * p)%nat in
         vblock 2 (fun l => lane_core 8 N1 s x y W [1*sp; 2*sp; 3*sp]%nat fwdcore8_fv sp (q + l)%nat))
  else (m, fun p => lblock (lane_core 8 N1 1 x y W [p] fwdcore8_fs p 0)).

(** fwdend5p : 1523-1544 *)
Definition fwdend5p (s : nat) (eo : bool) (x y W : ptr) : phase :=
  let z := if eo then y else x in
  (s, fun q => lblock (lane_end 5 s x z W [s]%nat end5_f q)).
(** fwdcore5p : 1546-1582 *)
Definition fwdcore5p (n s : nat) (x y W : ptr) : phase :=
  let N := (n * s)%nat in let ms := (N / 5)%nat in let N1 := (N / 5)%nat in
  (ms, fun i =>
    let p := (i / s)%nat in let q := (i mod s)%nat in let sp := (s * p)%nat in
    lblock (lane_core 5 N1 s x y W [N1; sp]%nat core5_f sp q)).

(** fwdend3p : 1586-1601 *)
Definition fwdend3p (s : nat) (eo : bool) (x y W : ptr) : phase :=
  let z := if eo then y else x in
  (s, fun q => lblock (lane_end 3 s x z W [s]%nat end3_f q)).
(** fwdcore3p : 1603-1629 *)
Definition fwdcore3p (n s : nat) (x y W : ptr) : phase :=
  let N := (n * s)%nat in let ms := (N / 3)%nat in let N1 := (N / 3)%nat in
  (ms, fun i =>
    let p := (i / s)%nat in let q := (i mod s)%nat in let sp := (s * p)%nat in
    lblock (lane_core 3 N1 s x y W [N1; sp]%nat core3_f sp q)).

(** fwdfftanyp : 1635-1686 *)
Fixpoint fwdfftanyp (fuel r n s : nat) (eo : bool) (x y W : ptr) : list phase :=
  match fuel with
  | O => [single UB]
  | S fuel' =>
      let N := (n * s)%nat in
      match find_factor n r n with
      | None => [single UB]
      | Some k =>
          if k =? n then
            (s, fun q => fwdany_end_body k s x y W q) ::
            (if eo then [] else [(N, copy_body x y)])
          else
            let m := (n / k)%nat in let ms := (m * s)%nat in
            (ms, fun h => fwdany_core_body k m s x y W (h / s) (h mod s)) ::
            fwdfftanyp fuel' k m (k * s) (negb eo) y x W
      end
  end.

(** fwdfftp : 1692-1738 *)
Fixpoint fwdfftp (fuel n s : nat) (eo : bool) (x y W : ptr) : list phase :=
  match fuel with
  | O => [single UB]
  | S fuel' =>
      let N := (n * s)%nat in
      if N <? 2 then []
      else if n mod 8 =? 0 then
        if n =? 8 then [fwdend8p s eo x y]
        else fwdcore8p n s x y W :: fwdfftp fuel' (n / 8) (8 * s) (negb eo) y x W
      else if n mod 4 =? 0 then
        if n =? 4 then [fwdend4p s eo x y]
        else fwdcore4p n s x y W :: fwdfftp fuel' (n / 4) (4 * s) (negb eo) y x W
      else if n mod 2 =? 0 then
        if n =? 2 then [fwdend2p s eo x y]
        else fwdcore2p n s x y W :: fwdfftp fuel' (n / 2) (2 * s) (negb eo) y x W
      else if n mod 5 =? 0 then
        if n =? 5 then [fwdend5p s eo x y W]
        else fwdcore5p n s x y W :: fwdfftp fuel' (n / 5) (5 * s) (negb eo) y x W
      else if n mod 3 =? 0 then
        if n =? 3 then [fwdend3p s eo x y W]
        else fwdcore3p n s x y W :: fwdfftp fuel' (n / 3) (3 * s) (negb eo) y x W
      else fwdfftanyp fuel' 7 n s eo x y W
  end.

(** ** Inverse functions, executed by a team of threads *)

(** invend2p : 1744-1768 *)
Definition invend2p (s : nat) (eo : bool) (x y : ptr) : phase :=
  let z := if eo then y else x in
  if 2 <=? s
  then par_step s 2 (fun q => vblock 2 (fun l => lane_end 2 s x z x [] b2 (q + l)%nat))
  else single (lblock (lane_end 2 1 x z x [] b2 0)).
(** invcore2p : 1770-1805 *)
Definition invcore2p (n s : nat) (x y W : ptr) : phase :=
  let m := (n / 2)%nat in let N := (n * s)%nat in let N1 := (N / 2)%nat in
  if 2 <=? s
  then ((N / 4)%nat, fun i =>
         let p := (i / (s / 2))%nat in let q := (i mod (s / 2) * 2)%nat in let sp := (s * p)%nat in
         vblock 2 (fun l => lane_core 2 N1 s x y W [N - sp]%nat core2_f sp (q + l)%nat))
  else (m, fun p => lblock (lane_core 2 N1 1 x y W [N - p]%nat core2_f p 0)).

(** invend4p : 1809-1849 *)
Definition invend4p (s : nat) (eo : bool) (x y : ptr) : phase :=
  let z := if eo then y else x in
  if 2 <=? s
  then par_step s 2 (fun q => vblock 2 (fun l => lane_end 4 s x z x [] i4 (q + l)%nat))
  else single (lblock (lane_end 4 1 x z x [] i4 0)).
(** invcore4p : 1851-1908 *)
Definition invcore4p (n s : nat) (x y W : ptr) : phase :=
  let m := (n / 4)%nat in let N := (n * s)%nat in let N1 := (N / 4)%nat in
  if 2 <=? s
  then ((N / 8)%nat, fun i =>
         let p := (i / (s / 2))%nat in let q := (i mod (s / 2) * 2)%nat in let sp := (s * p)%nat in
         vblock 2 (fun l => lane_core 4 N1 s x y W [N - 1*sp; N - 2*sp; N - 3*sp]%nat invcore4_fv sp (q + l)%nat))
  else (m, fun p => lblock (lane_core 4 N1 1 x y W [p] invcore4_fs p 0)).

(** invend8p : 1912-1992 *)
Definition invend8p (s : nat) (eo : bool) (x y : ptr) : phase :=
  let z := if eo then y else x in
  if 2 <=? s
  then par_step s 2 (fun q => vblock 2 (fun l => lane_end 8 s x z x [] i8 (q + l)%nat))
  else single (lblock (lane_end 8 1 x z x [] i8 0)).
(** invcore8p : 1994-2103 *)
Definition invcore8p (n s : nat) (x y W : ptr) : phase :=
  let m := (n / 8)%nat in let N := (n * s)%nat in let N1 := (N / 8)%nat in
  if 2 <=? s
  then ((N / 16)%nat, fun i =>
         let p := (i / (s / 2))%nat in let q := (i mod (s / 2) * 2)%nat in let sp := (s * p)%nat in
         vblock 2 (fun l => lane_core 8 N1 s x y W [N - 1*sp; N - 2*sp; N - 3*sp]%nat invcore8_fv sp (q + l)%nat))
  else (m, fun p => lblock (lane_core 8 N1 1 x y W [p] invcore8_fs p 0)).

(** invend5p : 2107-2128 *)
Definition invend5p (s : nat) (eo : bool) (x y W : ptr) : phase :=
  let z := if eo then y else x in
  (s, fun q => lblock (lane_end 5 s x z W [4 * s]%nat end5_f q)).
(** invcore5p : 2130-2166 *)
Definition invcore5p (n s : nat) (x y W : ptr) : phase :=
  let N := (n * s)%nat in let ms := (N / 5)%nat in let N1 := (N / 5)%nat in
  (ms, fun i =>
    let p := (i / s)%nat in let q := (i mod s)%nat in let sp := (s * p)%nat in
    lblock (lane_core 5 N1 s x y W [N1 * 4; N - sp]%nat core5_f sp q)).

(** invend3p : 2170-2185 *)
Definition invend3p (s : nat) (eo : bool) (x y W : ptr) : phase :=
  let z := if eo then y else x in
  (s, fun q => lblock (lane_end 3 s x z W [2 * s]%nat end3_f q)).
(** invcore3p : 2187-2213 *)
Definition invcore3p (n s : nat) (x y W : ptr) : phase :=
  let N := (n * s)%nat in let ms := (N / 3)%nat in let N1 := (N / 3)%nat in
  (ms, fun i =>
    let p := (i / s)%nat in let q := (i mod s)%nat in let sp := (s * p)%nat in
    lblock (lane_core 3 N1 s x y W [N1 * 2; N - sp]%nat core3_f sp q)).

(** invfftanyp : 2219-2270 *)
Fixpoint invfftanyp (fuel r n s : nat) (eo : bool) (x y W : ptr) : list phase :=
  match fuel with
  | O => [single UB]
  | S fuel' =>
      let N := (n * s)%nat in
      match find_factor n r n with
      | None => [single UB]
      | Some k =>
          if k =? n then
            (s, fun q => invany_end_body k s x y W q) ::
            (if eo then [] else [(N, copy_body x y)])
          else
            let m := (n / k)%nat in let ms := (m * s)%nat in
            (ms, fun h => invany_core_body k m s x y W (h / s) (h mod s)) ::
            invfftanyp fuel' k m (k * s) (negb eo) y x W
      end
  end.

(** invfftp : 2276-2322 *)
Fixpoint invfftp (fuel n s : nat) (eo : bool) (x y W : ptr) : list phase :=
  match fuel with
  | O => [single UB]
  | S fuel' =>
      let N := (n * s)%nat in
      if N <? 2 then []
      else if n mod 8 =? 0 then
        if n =? 8 then [invend8p s eo x y]
        else invcore8p n s x y W :: invfftp fuel' (n / 8) (8 * s) (negb eo) y x W
      else if n mod 4 =? 0 then
        if n =? 4 then [invend4p s eo x y]
        else invcore4p n s x y W :: invfftp fuel' (n / 4) (4 * s) (negb eo) y x W
      else if n mod 2 =? 0 then
        if n =? 2 then [invend2p s eo x y]
        else invcore2p n s x y W :: invfftp fuel' (n / 2) (2 * s) (negb eo) y x W
      else if n mod 5 =? 0 then
        if n =? 5 then [invend5p s eo x y W]
        else invcore5p n s x y W :: invfftp fuel' (n / 5) (5 * s) (negb eo) y x W
      else if n mod 3 =? 0 then
        if n =? 3 then [invend3p s eo x y W]
        else invcore3p n s x y W :: invfftp fuel' (n / 3) (3 * s) (negb eo) y x W
      else invfftanyp fuel' 7 n s eo x y W
  end.

End Mixed.
