(** * Model of the quarter-table lookup: src/otfft_misc.h:66-96 (mylog2, modq) *)

From Coq Require Import List Arith ZArith Bool Lia.
From Verif Require Import Scalar Mem Lanes.
Import ListNotations.

(** otfft_misc.h:73-76.  Recursion on N/2 with fuel N (the argument at least halves in every call, so that the fuel never runs out:
    [PropModq.mylog2_unfold]). *)
Fixpoint mylog2_f (fuel N : nat) : nat :=
  match fuel with
  | 0 => 0
  | S f => if N <=? 1 then 0 else 1 + mylog2_f f (N / 2)
  end.
Definition mylog2 (N : nat) : nat := mylog2_f N N.

Section Modq.
Context {Op : Ops}.
(** otfft_misc.h:78-93: modq<N, s>(W, p).  s*p is an int product (UB when it overflows); for N < 4 the mask Nq-1 is -1, and
    sp & -1 = sp. *)
Definition modq (N s : nat) (W : ptr) (p : nat) : prog C C :=
  let Nq := N / 4 in
  let log_Nq := mylog2 Nq in
  sp <- imul s p ;;
  let q := Nat.shiftr sp log_Nq in
  let r := if Nq =? 0 then sp else Nat.land sp (Nq - 1) in
  z <- load (W +! r) ;;
  Ret (match Nat.land q 3 with
       | 0 => z
       | 1 => mjx z
       | 2 => cneg z
       | _ => jx z
       end).
End Modq.
