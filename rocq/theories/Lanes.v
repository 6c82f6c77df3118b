(** * Vocabulary shared by all FFT kernels of the model *)

From Coq Require Import List Arith ZArith Bool.
From Verif Require Import Scalar Mem Omp.
Import ListNotations.

Section Lanes.
Context {Op : Ops}.
Notation prog := (prog C).
Notation lane := (lane C).
Notation phase := (phase (V:=C)).

(** one scalar block: getpz ... setpz *)
Definition lblock (t : lane) : prog unit := block (rd t) (wr t) (fn t).

(** one SIMD block of [L] neighbouring lanes: getpz2/setpz2 (L = 2), getez4/setez4 (L = 4) *)
Definition vblock (L : nat) (t : nat -> lane) : prog unit :=
  blockL L (fun l => rd (t l)) (fun l => wr (t l)) (fun l => fn (t l)).

(** for (int q = 0; q < n; q += st) body(q) *)
Definition for_step (n st : nat) (body : nat -> prog unit) : prog unit :=
  for_ ((n + st - 1) / st) (fun i => body (st * i)).
(** the same loop as a work-sharing construct *)
Definition par_step (n st : nat) (body : nat -> prog unit) : phase :=
  ((n + st - 1) / st, fun i => body (st * i)).
(** code outside work-sharing constructs, and `omp single` *)
Definition single (p : prog unit) : phase := (1, fun _ => p).

(** Addressing of every decimation-in-frequency butterfly: loads at xq_sp = x + q + sp plus
    N0, N1, N2 = 2*N1, ...; stores at yq_srp = y + q + r*sp plus s*0, s*1, ...; twiddles from W[tw]. *)
Definition lane_core (r N1 s : nat) (x y W : ptr) (tw : list nat) (f : list C -> list C) (sp q : nat) : lane :=
  Lane (map (fun k => W +! k) tw ++ map (fun i => x +! (q + sp + N1 * i)) (seq 0 r))
       (map (fun j => y +! (q + r * sp + s * j)) (seq 0 r)) f.

(** Addressing of every final butterfly: loads x + q + s*i, stores z + q + s*j. *)
Definition lane_end (r s : nat) (x z W : ptr) (tw : list nat) (f : list C -> list C) (q : nat) : lane :=
  Lane (map (fun k => W +! k) tw ++ map (fun i => x +! (q + s * i)) (seq 0 r))
       (map (fun j => z +! (q + s * j)) (seq 0 r)) f.

(** Addressing of every decimation-in-time butterfly: loads at yq_srp + s*i, stores at xq_sp + N_j. *)
Definition lane_dit (r N1 s : nat) (y x W : ptr) (tw : list nat) (f : list C -> list C) (sp q : nat) : lane :=
  Lane (map (fun k => W +! k) tw ++ map (fun i => y +! (q + r * sp + s * i)) (seq 0 r))
       (map (fun j => x +! (q + sp + N1 * j)) (seq 0 r)) f.

(** int arithmetic: products that are not array indices are checked against INT_MAX *)
Definition INT_MAX : Z := 2147483647.
Definition mul_ok (a b : nat) : bool := (Z.of_nat a * Z.of_nat b <=? INT_MAX)%Z.
Definition imul (a b : nat) : prog nat := if mul_ok a b then Ret (a * b) else UB.

End Lanes.
