(** * Memory and programs

    A C++ function body becomes a [prog]: a tree of individual loads, stores and allocations.
    Undefined behaviour (out-of-bounds or uninitialised access, use of a null object, signed overflow) is the
    distinct outcome [None] of [run]. *)

From Coq Require Import List Arith Bool.
Import ListNotations.

(** A location is (buffer, element index).  A buffer is a [simd_array] or a caller-supplied array
    (inc/otfft_complex.h:258-284); pointer arithmetic inside a buffer is [padd]. *)
Definition loc : Type := (nat * nat)%type.
Definition ptr : Type := loc.
Definition padd (p : ptr) (k : nat) : ptr := (fst p, snd p + k).
Notation "p +! k" := (padd p k) (at level 50, left associativity).

Definition loc_eqb (a b : loc) : bool := (fst a =? fst b) && (snd a =? snd b).

Section Mem.
Variable V : Type.

(** State of one array element: not allocated, allocated but never written, holding a value. *)
Inductive cell := Free | Uninit | Val (v : V).

Definition mem := loc -> cell.

Definition upd (m : mem) (l : loc) (v : V) : mem :=
  fun l' => if loc_eqb l' l then Val v else m l'.

(** simd_array::setup : inc/otfft_complex.h:268-273 - the old block is released, a new one of n
    elements is obtained, its contents are indeterminate.  (Allocation failure: see ModelArray.v.) *)
Definition malloc (m : mem) (b n : nat) : mem :=
  fun l => if fst l =? b then (if snd l <? n then Uninit else Free) else m l.

Inductive prog (A : Type) : Type :=
| Ret (a : A)
| UB
| Load (l : loc) (k : V -> prog A)
| Store (l : loc) (v : V) (k : prog A)
| Alloc (b n : nat) (k : prog A).

Arguments Ret {A}. Arguments UB {A}. Arguments Load {A}. Arguments Store {A}. Arguments Alloc {A}.

Fixpoint bind {A B} (p : prog A) (f : A -> prog B) : prog B :=
  match p with
  | Ret a => f a
  | UB => UB
  | Load l k => Load l (fun v => bind (k v) f)
  | Store l v k => Store l v (bind k f)
  | Alloc b n k => Alloc b n (bind k f)
  end.

(** Sequential execution; [None] is undefined behaviour. *)
Fixpoint run {A} (p : prog A) (m : mem) : option (A * mem) :=
  match p with
  | Ret a => Some (a, m)
  | UB => None
  | Load l k => match m l with Val v => run (k v) m | _ => None end
  | Store l v k => match m l with Free => None | _ => run k (upd m l v) end
  | Alloc b n k => run k (malloc m b n)
  end.

Definition load (l : loc) : prog V := Load l (@Ret V).
Definition store (l : loc) (v : V) : prog unit := Store l v (Ret tt).
Definition alloc (b n : nat) : prog unit := Alloc b n (Ret tt).
Definition skip : prog unit := Ret tt.

(** for (int i = 0; i < n; i++) body(i) *)
Fixpoint for_ (n : nat) (body : nat -> prog unit) : prog unit :=
  match n with
  | O => skip
  | S n' => bind (for_ n' body) (fun _ => body n')
  end.

Fixpoint loads (rs : list loc) : prog (list V) :=
  match rs with
  | [] => Ret []
  | r :: rs' => Load r (fun v => bind (loads rs') (fun vs => Ret (v :: vs)))
  end.

Fixpoint stores (ws : list loc) (vs : list V) : prog unit :=
  match ws, vs with
  | w :: ws', v :: vs' => Store w v (stores ws' vs')
  | [], [] => Ret tt
  | _, _ => UB      (* never used: a block stores exactly as many values as it computes *)
  end.

(** Straight-line block: load the operands, compute, store the results. *)
Definition block (rs ws : list loc) (f : list V -> list V) : prog unit :=
  bind (loads rs) (fun vs => stores ws (f vs)).

Fixpoint loadss (L : nat) (rs : nat -> list loc) : prog (list (list V)) :=
  match L with
  | O => Ret []
  | S L' => bind (loadss L' rs) (fun vss => bind (loads (rs L')) (fun vs => Ret (vss ++ [vs])))
  end.

Fixpoint storess (ws : nat -> list loc) (l0 : nat) (vss : list (list V)) : prog unit :=
  match vss with
  | [] => Ret tt
  | vs :: rest => bind (stores (ws l0) vs) (fun _ => storess ws (S l0) rest)
  end.

Fixpoint mapi {A B} (f : nat -> A -> B) (i : nat) (l : list A) : list B :=
  match l with [] => [] | a :: r => f i a :: mapi f (S i) r end.

(** Vector block with [L] lanes: all lanes of all operands are loaded before any lane of any
    result is stored (getpz2/setpz2, getez4/setez4: src/otfft_misc.h:726-746, 1462-1474). *)
Definition blockL (L : nat) (rs ws : nat -> list loc) (f : nat -> list V -> list V) : prog unit :=
  bind (loadss L rs) (fun vss => storess ws 0 (mapi f 0 vss)).

(** A lane: one scalar instance of a straight-line block. *)
Record lane := Lane { rd : list loc; wr : list loc; fn : list V -> list V }.

End Mem.

Arguments Free {V}. Arguments Uninit {V}. Arguments Val {V}.
Arguments upd {V}. Arguments malloc {V}.
Arguments Ret {V A}. Arguments UB {V A}. Arguments Load {V A}. Arguments Store {V A}. Arguments Alloc {V A}.
Arguments bind {V A B}. Arguments run {V A}.
Arguments load {V}. Arguments store {V}. Arguments alloc {V}. Arguments skip {V}. Arguments for_ {V}.
Arguments loads {V}. Arguments stores {V}. Arguments block {V}.
Arguments Lane {V}. Arguments rd {V}. Arguments wr {V}. Arguments fn {V}.
Arguments loadss {V}. Arguments storess {V}. Arguments blockL {V}. Arguments mapi {A B}.

Notation "x <- p ;; q" := (bind p (fun x => q)) (at level 61, p at next level, right associativity).
Notation "p ;;; q" := (bind p (fun _ => q)) (at level 61, right associativity).
