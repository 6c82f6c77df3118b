(** * 32-byte memory accesses (AVX builds)

    A 32-byte access touches two neighbouring complex numbers (16 bytes each): it is written as the pair of cells it
    touches.  The functions below say how the accesses of a block are made up of the addresses its lanes use. *)

From Coq Require Import List Arith.
From Verif Require Import Scalar Mem Omp.
Import ListNotations.

Inductive vmode := Scalar | Across | Within.

Fixpoint pairs (l : list ptr) : list (ptr * ptr) :=
  match l with a :: b :: r => (a, b) :: pairs r | _ => [] end.

(** [t l]: the operands of lane l of a block of [L] lanes *)
Definition group (m : vmode) (L : nat) (t : nat -> list ptr) : list (ptr * ptr) :=
  match m with
  | Scalar => []                                                                        (* getpz, setpz, dup...: 16 bytes *)
  | Across => flat_map (fun h => combine (t (2 * h)) (t (2 * h + 1))) (seq 0 (L / 2))   (* the same operand of lanes 2h, 2h+1 *)
  | Within => flat_map (fun l => pairs (t l)) (seq 0 L)                                 (* operands 2j, 2j+1 of one lane *)
  end.

(** a block of [L] lanes whose first [nt] operands are twiddle factors *)
Definition vec {V} (nt : nat) (mt ml ms : vmode) (L : nat) (t : nat -> lane V) : list (ptr * ptr) :=
  group mt L (fun l => firstn nt (rd (t l))) ++ group ml L (fun l => skipn nt (rd (t l))) ++ group ms L (fun l => wr (t l)).

(** loops, as for_ and for_step *)
Definition vfor {A} (n : nat) (f : nat -> list A) : list A := flat_map f (seq 0 n).
Definition vstep {A} (n st : nat) (f : nat -> list A) : list A := vfor ((n + st - 1) / st) (fun i => f (st * i)).
