(** * Calls of library functions

    A call allocates buffers (simd_array::setup, inc/otfft_complex.h:268-273) and runs parallel
    regions (sequential code is a region with a single one-iteration phase). *)

From Coq Require Import List Arith Bool.
From Verif Require Import Mem Omp.
Import ListNotations.

Section Object.
Context {V : Type}.
Notation mem := (mem V).
Notation phase := (phase (V:=V)).

Inductive act :=
| New (b n : nat)           (* (re)allocate buffer b with n elements *)
| Par (r : list phase).     (* run a parallel region *)

(** complete executions, under any thread schedule *)
Inductive call_exec : list act -> mem -> mem -> Prop :=
| ce_nil m : call_exec [] m m
| ce_new b n rest m m' : call_exec rest (malloc m b n) m' -> call_exec (New b n :: rest) m m'
| ce_par r rest m m1 m' : region_exec r m m1 -> call_exec rest m1 m' -> call_exec (Par r :: rest) m m'.

(** states (number of threads, their remaining programs, memory) reachable inside the call *)
Inductive call_reach : list act -> mem -> nat -> threads -> mem -> Prop :=
| cr_new b n rest m k T m' : call_reach rest (malloc m b n) k T m' -> call_reach (New b n :: rest) m k T m'
| cr_here r rest m k T m' : region_reach r m k T m' -> call_reach (Par r :: rest) m k T m'
| cr_later r rest m m1 k T m' : region_exec r m m1 -> call_reach rest m1 k T m' -> call_reach (Par r :: rest) m k T m'.

(** [Outcome c m m']: started in memory m the call has defined behaviour and leaves memory m',
    whatever the number of threads and the schedule. *)
Record Outcome (c : list act) (m m' : mem) : Prop := {
  (* it can complete *)
  oc_completes : exists m'', call_exec c m m'';
  (* every completed execution leaves m' *)
  oc_unique : forall m'', call_exec c m m'' -> forall l, m'' l = m' l;
  (* no execution reaches undefined behaviour (bad access, null object, integer overflow) ... *)
  oc_defined : forall k T m1, call_reach c m k T m1 -> forall i, i < k -> ~ bad (T i) m1;
  (* ... or a data race ... *)
  oc_race_free : forall k T m1, call_reach c m k T m1 -> forall i j, i < k -> j < k -> i <> j -> ~ racing (T i) (T j);
  (* ... or blocks ... *)
  oc_progress : forall k T m1, call_reach c m k T m1 -> finished k T \/ exists s', pstep k (T, m1) s';
  (* ... or runs forever *)
  oc_terminates : forall k T m1, call_reach c m k T m1 -> Acc (fun s' s => pstep k s s') (T, m1)
}.

(** the call executed by one thread *)
Fixpoint call_seq (c : list act) (m : mem) : option mem :=
  match c with
  | [] => Some m
  | New b n :: rest => call_seq rest (malloc m b n)
  | Par r :: rest => match run (region_seq r) m with Some (_, m1) => call_seq rest m1 | None => None end
  end.

End Object.

Arguments act : clear implicits.
