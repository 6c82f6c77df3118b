(** * Real transforms: RFFT, DCT0 and DCT, src/otfft_algo.cpp:200-713

    An array of double is modelled as an array of cells in which the number d is represented by the complex
    value (d, 0) ([rval]); reading takes the real part. *)

From Coq Require Import List Arith ZArith Bool.
From Verif Require Import Scalar Mem Omp Lanes Object Engine ModelApi.
Import ListNotations.

Section Real.
Context {Op : Ops}.
Notation prog := (prog C).
Notation act := (act C).

Definition rval (d : Sc) : C := mkC d s0.
(** int -> double *)
Definition sn (n : nat) : Sc := sofZ (Z.of_nat n).

(** RFFT::OMP_THRESHOLD, OMP_THRESHOLD_W, DCT0::..., Bluestein::... : src/otfft_base.h:83-84, 98-99, 168-169 *)
Definition base_omp : nat := 2 ^ 15.
Definition base_omp_w : nat := 2 ^ 16.

(** ** RFFT *)
(** complex_t(a, b)/2 *)
Definition half2 (a b : Sc) : C := mkC (sdiv a s2) (sdiv b s2).

(** bodies of the loops filling U : src/otfft_algo.cpp:232-238 *)
Definition U_body2 (N : nat) (U : ptr) (p : nat) : prog unit :=
  let theta0 := sdiv (smul s2 spi) (sn N) in
  let theta := smul (sn p) theta0 in
  let c := scos theta in let s := sneg (ssin theta) in
  block [] [U +! p; U +! (N - p)] (fun _ => [half2 (ssub s1 s) c; half2 (sadd s1 s) c]).
(** src/otfft_algo.cpp:251-263, 266-278 *)
Definition U_body8 (N : nat) (U : ptr) (p : nat) : prog unit :=
  let theta0 := sdiv (smul s2 spi) (sn N) in
  let Nh := N / 2 in let Nq := N / 4 in let Nd := N - Nq in
  let theta := smul (sn p) theta0 in
  let c := scos theta in let s := sneg (ssin theta) in
  block [] [U +! p; U +! (Nq - p); U +! (Nq + p); U +! (Nh - p); U +! (Nh + p); U +! (Nd - p); U +! (Nd + p); U +! (N - p)]
    (fun _ => [half2 (ssub s1 s) c; half2 (sadd s1 c) (sneg s); half2 (sadd s1 c) s; half2 (ssub s1 s) (sneg c);
               half2 (sadd s1 s) (sneg c); half2 (ssub s1 c) s; half2 (ssub s1 c) (sneg s); half2 (sadd s1 s) c]).
(** src/otfft_algo.cpp:231-279 *)
Definition rfft_table (N : nat) (U : ptr) : list act :=
  let Nh := N / 2 in let Ne := N / 8 in
  if N <? 1 then []
  else if negb (N =? 2 ^ log_loop N N 0) then [Par [single (for_ (Nh + 1) (U_body2 N U))]]
  else if N =? 1 then [Par [single (block [] [U +! 1; U +! 0] (fun _ => [half2 s1 s1; half2 s1 s1]))]]
  else if N =? 2 then [Par [single (block [] [U +! 2; U +! 0; U +! 1] (fun _ => [half2 s1 s1; half2 s1 s1; half2 s1 (sofZ (-1))]))]]
  else if N =? 4 then
    [Par [single (block [] [U +! 0; U +! 1; U +! 2; U +! 3; U +! 4]
       (fun _ => [half2 s1 s1; half2 s2 s0; half2 s1 (sofZ (-1)); half2 s0 s0; half2 s1 s1]))]]
  else if N <? base_omp_w then [Par [single (for_ (Ne + 1) (U_body8 N U))]]
  else [Par [(Ne + 1, U_body8 N U)]].

(** RFFT::setup : src/otfft_algo.cpp:217-279; `weight` is buffer b+3 *)
Definition rfft_setup (b N : nat) : list act :=
  fft0_setup b (N / 2) ++ New (b + 3) (N + 1) :: rfft_table N (b + 3, 0).

(** what y[0] and z[0] are divided by, and the factor of the other elements *)
Definition rf_div (N : nat) (k : meth) (v : Sc) : Sc :=
  match k with
  | fwd | fwdn => sdiv v (sn N)
  | fwdu => sdiv v (ssqrt (sn N))
  | _ => v
  end.
Definition rf_mul (N : nat) (k : meth) (v : C) : C :=
  match k with
  | fwd | fwdn => cscal (sdiv s1 (sn N)) v
  | fwdu => cscal (sdiv s1 (ssqrt (sn N))) v
  | _ => v
  end.

(** loop bodies of RFFT::fwd* ; k = i + 1 *)
Definition rf_pack (x z : ptr) (p : nat) : prog unit :=
  block [x +! (2 * p); x +! (2 * p + 1)] [z +! p] (fun v => match v with [a; b] => [mkC (Re a) (Re b)] | _ => [] end).
Definition rf_split (N : nat) (kind : meth) (U y z : ptr) (i : nat) : prog unit :=
  let k := i + 1 in let Nh := N / 2 in
  block [z +! k; z +! (Nh - k); U +! k] [y +! k; y +! (Nh - k)]
    (fun v => match v with
      | [zk; zl; u] =>
          let a := zk in let b := cconj zl in let c := cmul u (csub a b) in
          [rf_mul N kind (csub a c); rf_mul N kind (cconj (cadd b c))]
      | _ => [] end).
Definition rf_mirror (N : nat) (y : ptr) (i : nat) : prog unit :=
  let k := i + 1 in
  block [y +! k] [y +! (N - k)] (fun v => match v with [a] => [cconj a] | _ => [] end).

(** RFFT::fwd, fwd0, fwdu, fwdn : src/otfft_algo.cpp:281-393 *)
Definition rfft_fwd (b N : nat) (kind : meth) (x y : ptr) : list act :=
  let U : ptr := (b + 3, 0) in
  if N <? 1 then []
  else if N =? 1 then [Par [single (block [x +! 0] [y +! 0] (fun v => match v with [a] => [rval (Re a)] | _ => [] end))]]
  else
    let Nh := N / 2 in let Nq := N / 4 in
    let z := y +! Nh in
    [Par [single (for_ Nh (rf_pack x z))]] ++
    fft0_run b Nh fwd0 z y ++
    [Par [single (block [z +! 0] [y +! 0] (fun v => match v with [a] => [rval (rf_div N kind (sadd (Re a) (Im a)))] | _ => [] end))];
     Par [single (block [z +! 0] [z +! 0] (fun v => match v with [a] => [rval (rf_div N kind (ssub (Re a) (Im a)))] | _ => [] end))];
     Par (if N <? base_omp
          then [single (for_ Nq (rf_split N kind U y z) ;;; for_ (Nh - 1) (rf_mirror N y))]
          else [(Nq, rf_split N kind U y z); (Nh - 1, rf_mirror N y)])].

(** loop bodies of RFFT::inv* *)
Definition ri_mul (N : nat) (k : meth) (v : C) : C :=
  match k with
  | inv | inv0 => cscal s2 v
  | invu => cscal (sdiv s2 (ssqrt (sn N))) v
  | _ => v
  end.
Definition ri_merge (N : nat) (kind : meth) (U x z : ptr) (k : nat) : prog unit :=
  let Nh := N / 2 in
  block [x +! k; x +! (Nh - k); U +! k] [z +! k]
    (fun v => match v with
      | [xk; xl; u] =>
          let a := cconj xk in let b := csub a xl in let c := cmul u b in
          [ri_mul N kind (cconj (csub a c))]
      | _ => [] end).
Definition ri_unpack (z y : ptr) (p : nat) : prog unit :=
  block [z +! p] [y +! (2 * p); y +! (2 * p + 1)] (fun v => match v with [a] => [rval (Re a); rval (Im a)] | _ => [] end).

(** RFFT::inv, inv0, invu, invn : src/otfft_algo.cpp:395-490.  The input array x is overwritten. *)
Definition rfft_inv (b N : nat) (kind : meth) (x y : ptr) : list act :=
  let U : ptr := (b + 3, 0) in
  if N <? 1 then []
  else if N =? 1 then [Par [single (block [x +! 0] [y +! 0] (fun v => match v with [a] => [rval (Re a)] | _ => [] end))]]
  else
    let Nh := N / 2 in
    let z := x +! Nh in
    (if N <? base_omp then [Par [single (for_ Nh (ri_merge N kind U x z))]] else [Par [(Nh, ri_merge N kind U x z)]]) ++
    fft0_run b Nh (match kind with invn => invn | _ => inv0 end) z x ++
    (if N <? base_omp then [Par [single (for_ Nh (ri_unpack z y))]] else [Par [(Nh, ri_unpack z y)]]).

(** the methods of RealFFT (inc/otfft.h): fwd* read N doubles at x and write N complex numbers at y,
    inv* read N complex numbers at x (and overwrite them) and write N doubles at y *)
Definition rfft_run (b N : nat) (k : meth) (x y : ptr) : list act :=
  if meth_inv k then rfft_inv b N k x y else rfft_fwd b N k x y.

(** ** DCT0 *)
Definition V_body (N : nat) (V : ptr) (p : nat) : prog unit :=
  let theta0 := sdiv spi (sn (2 * N)) in
  let theta := smul (sn p) theta0 in
  let c := scos theta in let s := ssin theta in
  block [] [V +! p; V +! (N - p)] (fun _ => [mkC c s; mkC s c]).
(** DCT0::setup : src/otfft_algo.cpp:513-537; `weight` is buffer b+4.  The int product 2*N of line 519 is not an
    array index, so its overflow is checked. *)
Definition dct0_setup (b N : nat) : list act :=
  rfft_setup b N ++ New (b + 4) (N + 1) ::
  if negb (mul_ok 2 N) then [Par [single UB]]
  else if N <? 2 then []
  else if N <? base_omp_w then [Par [single (for_ (N / 2 + 1) (V_body N (b + 4, 0)))]]
  else [Par [(N / 2 + 1, V_body N (b + 4, 0))]].

Definition omp_loop (N n : nat) (body : nat -> prog unit) : list act :=
  if N <? base_omp then [Par [single (for_ n body)]] else [Par [(n, body)]].

Definition df_perm (N : nat) (x y : ptr) (p : nat) : prog unit :=
  block [x +! (2 * p); x +! (2 * p + 1)] [y +! p; y +! (N - p - 1)] (fun v => match v with [a; b] => [a; b] | _ => [] end).
(** k = 2q; haddpz(mulpd(V[k],z[k]), mulpd(V[k+1],z[k+1])) : src/otfft_misc.h:378-382 *)
Definition df_rot (V z x : ptr) (q : nat) : prog unit :=
  let k := 2 * q in
  block [V +! k; z +! k; V +! (k + 1); z +! (k + 1)] [x +! k; x +! (k + 1)]
    (fun v => match v with
      | [va; za; vb; zb] => [rval (sadd (smul (Re va) (Re za)) (smul (Im va) (Im za))); rval (sadd (smul (Re vb) (Re zb)) (smul (Im vb) (Im zb)))]
      | _ => [] end).

(** methods of RealDCT (inc/otfft.h): there is no unitary variant *)
Inductive dmeth := Dfwd | Dfwd0 | Dfwdn | Dinv | Dinv0 | Dinvn.
Definition dct_kind (k : dmeth) : meth :=
  match k with Dfwd => fwd | Dfwd0 => fwd0 | Dfwdn => fwd | Dinv => inv | Dinv0 => inv | Dinvn => invn end.

(** DCT0::fwd, fwd0, fwdn : src/otfft_algo.cpp:539-620 *)
Definition dct0_fwd (b N : nat) (kind : meth) (x y z : ptr) : list act :=
  if N <? 2 then []
  else
    omp_loop N (N / 2) (df_perm N x y) ++
    rfft_fwd b N kind y z ++
    omp_loop N ((N + 1) / 2) (df_rot (b + 4, 0) z x).

Definition di_rot (N : nat) (V z x : ptr) (i : nat) : prog unit :=
  let k := i + 1 in
  block [V +! k; x +! k; x +! (N - k)] [z +! k]
    (fun v => match v with [w; a; b] => [cmulT w (mkC (Re a) (sneg (Re b)))] | _ => [] end).
Definition di_perm (N : nat) (x y : ptr) (p : nat) : prog unit :=
  block [y +! p; y +! (N - p - 1)] [x +! (2 * p); x +! (2 * p + 1)] (fun v => match v with [a; b] => [a; b] | _ => [] end).

(** DCT0::inv, inv0, invn : src/otfft_algo.cpp:622-683 *)
Definition dct0_inv (b N : nat) (kind : meth) (x y z : ptr) : list act :=
  if N <? 2 then []
  else
    [Par [single (block [x +! 0] [z +! 0] (fun v => match v with [a] => [rval (Re a)] | _ => [] end))]] ++
    omp_loop N (N - 1) (di_rot N (b + 4, 0) z x) ++
    rfft_inv b N kind z y ++
    omp_loop N (N / 2) (di_perm N x y).

Definition dct0_run (b N : nat) (k : dmeth) (x y z : ptr) : list act :=
  match k with
  | Dfwd | Dfwd0 | Dfwdn => dct0_fwd b N (dct_kind k) x y z
  | Dinv | Dinv0 | Dinvn => dct0_inv b N (dct_kind k) x y z
  end.

(** DCT::setup : src/otfft_algo.cpp:699-705; work1 is buffer b+5, work2 buffer b+6 *)
Definition dct_setup (b N : nat) : list act := dct0_setup b N ++ [New (b + 5) N; New (b + 6) N].
(** DCT::fwd .. invn : src/otfft_algo.cpp:707-735 *)
Definition dct_run (b N : nat) (k : dmeth) (x : ptr) : list act := dct0_run b N k x (b + 5, 0) (b + 6, 0).

End Real.
