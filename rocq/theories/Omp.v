(** * OpenMP parallel regions: interleaving semantics

    `#pragma omp parallel` + `omp for` (src/otfft_mixedradix.h:1158-2324, src/otfft_avx*omp.h,
    src/otfft_algo.cpp, src/otfft_misc.h:148-201): a region is a list of phases, each phase a
    work-sharing loop whose iterations are distributed over the threads of the team; the phases
    are separated by barriers.  `nowait` occurs only on the last construct of a region, `omp single` is a phase with a
    single iteration.  Interleaving is at the granularity of one load or store. *)

From Coq Require Import List Arith Bool Permutation.
From Verif Require Import Mem.
Import ListNotations.

Section Omp.
Context {V : Type}.
Notation mem := (mem V).
Notation prog := (prog V).

(** one atomic access *)
Inductive astep : prog unit -> mem -> prog unit -> mem -> Prop :=
| a_load l k m v : m l = Val v -> astep (Load l k) m (k v) m
| a_store l v k m : m l <> Free -> astep (Store l v k) m k (upd m l v).

(** state of a phase: the remaining program of each of the [n] threads, and the shared memory *)
Definition threads := nat -> prog unit.

Definition setth (T : threads) (i : nat) (p : prog unit) : threads :=
  fun j => if j =? i then p else T j.

Inductive pstep (n : nat) : threads * mem -> threads * mem -> Prop :=
| p_step T m i p' m' : i < n -> astep (T i) m p' m' -> pstep n (T, m) (setth T i p', m').

Inductive psteps (n : nat) : threads * mem -> threads * mem -> Prop :=
| ps_refl s : psteps n s s
| ps_step s s' s'' : psteps n s s' -> pstep n s' s'' -> psteps n s s''.

Definition finished (n : nat) (T : threads) : Prop := forall i, i < n -> T i = Ret tt.

(** the next operation of a thread is undefined behaviour *)
Definition bad (p : prog unit) (m : mem) : Prop :=
  match p with
  | Ret _ => False
  | UB => True
  | Load l _ => forall v, m l <> Val v
  | Store l _ _ => m l = Free
  | Alloc _ _ _ => True
  end.

Definition next_access (p : prog unit) : option (loc * bool) :=
  match p with
  | Load l _ => Some (l, false)
  | Store l _ _ => Some (l, true)
  | _ => None
  end.

(** two threads are about to perform conflicting accesses: a data race *)
Definition racing (p q : prog unit) : Prop :=
  exists l b1 b2, next_access p = Some (l, b1) /\ next_access q = Some (l, b2) /\ (b1 || b2) = true.

(** a work-sharing loop: number of iterations and body *)
Definition phase : Type := (nat * (nat -> prog unit))%type.

(** a schedule of a loop: for each thread the iterations it executes, in order *)
Definition schedule (ph : phase) (chunks : list (list nat)) : Prop :=
  Permutation (concat chunks) (seq 0 (fst ph)).

Fixpoint chunk_prog (body : nat -> prog unit) (is : list nat) : prog unit :=
  match is with
  | [] => Ret tt
  | i :: is' => bind (body i) (fun _ => chunk_prog body is')
  end.

Definition team (ph : phase) (chunks : list (list nat)) : threads :=
  fun t => chunk_prog (snd ph) (nth t chunks []).

(** execution of a region under some schedule: states reachable inside, and final memories *)
Inductive region_exec : list phase -> mem -> mem -> Prop :=
| re_nil m : region_exec [] m m
| re_cons ph rest m chunks T' m' m'' :
    schedule ph chunks ->
    psteps (length chunks) (team ph chunks, m) (T', m') -> finished (length chunks) T' ->
    region_exec rest m' m'' ->
    region_exec (ph :: rest) m m''.

(** (number of threads, threads' remaining programs, memory) reachable in some phase of the region *)
Inductive region_reach : list phase -> mem -> nat -> threads -> mem -> Prop :=
| rr_here ph rest m chunks T' m' :
    schedule ph chunks ->
    psteps (length chunks) (team ph chunks, m) (T', m') ->
    region_reach (ph :: rest) m (length chunks) T' m'
| rr_later ph rest m chunks T' m' n T'' m'' :
    schedule ph chunks ->
    psteps (length chunks) (team ph chunks, m) (T', m') -> finished (length chunks) T' ->
    region_reach rest m' n T'' m'' ->
    region_reach (ph :: rest) m n T'' m''.

(** the same region executed by a single thread, iterations in order *)
Fixpoint region_seq (r : list phase) : prog unit :=
  match r with
  | [] => Ret tt
  | ph :: rest => bind (for_ (fst ph) (snd ph)) (fun _ => region_seq rest)
  end.

(** ** Specification of schedule independence of a region started in memory [m]. *)
Definition schedule_independent (r : list phase) (m : mem) : Prop :=
  exists m', run (region_seq r) m = Some (tt, m') /\
    (* every complete parallel execution ends in the memory of the sequential one *)
    (forall m'', region_exec r m m'' -> forall l, m'' l = m' l) /\
    (* no execution can run into undefined behaviour or a data race, or get stuck *)
    (forall n T m1, region_reach r m n T m1 ->
        (forall i, i < n -> ~ bad (T i) m1) /\
        (forall i j, i < n -> j < n -> i <> j -> ~ racing (T i) (T j)) /\
        (finished n T \/ exists s', pstep n (T, m1) s')) /\
    (* every phase terminates under every scheduler *)
    (forall n s, Acc (fun s' s => pstep n s s') s).

End Omp.
