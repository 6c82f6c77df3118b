(** * Ownership of table memory with failing allocations

    inc/otfft_complex.h:234-284 (simd_malloc, simd_free, simd_array) and, on top of it, the constructors, setup
    functions and destructors of the transform objects, src/otfft_algo.cpp and src/otfft_algo_*.cpp.

    This model looks only at which blocks are obtained, released and accessed; the contents of the blocks are the
    subject of the other Model*.v files, where allocation always succeeds.  Every request to the allocator may fail:
    [fail k] tells whether the k-th request of the run does.  A block is identified by the number of the request it
    answered. *)

From Coq Require Import List Arith Bool.
From Verif Require Import Lanes ModelPow ModelSix ModelApi ModelBluestein.
Import ListNotations.

(** what happens to memory, newest event first *)
Inductive ev :=
| Alloc (b n : nat)     (* the allocator returns block b for n elements *)
| Free (b : nat)        (* block b is given back *)
| Use (b : nat)         (* an element of block b is accessed *)
| Bad.                  (* access through a null pointer, or int overflow *)

(** The pointers that own memory.  Obj : FFT0::obj; EW, EWm, EWs, EIv : weight, weight_med, weight_sub, index_array
    of the algorithm object (only OTFFT_SixStep has the last three); Work : FFT::work; Wu : RFFT::weight;
    Wv : DCT0::weight; Wk1, Wk2 : DCT::work1, work2 or Bluestein::work1, work2; Wb : Bluestein::weight. *)
Inductive name := Obj | EW | EWm | EWs | EIv | Work | Wu | Wv | Wk1 | Wk2 | Wb.
Scheme Equality for name.

(** [ptr i]: the field p of array i (for Obj, the unique_ptr); [ali i]: the raw pointer kept beside array i and used
    for all accesses: W, Wm, Ws, iv of an algorithm object, FFT::y, RFFT::U, DCT0::V, DCT::y, DCT::z, Bluestein::a, b, W.
    [len]: the field N of RFFT, DCT0, DCT, Bluestein. *)
Record st := { ptr : name -> option nat; ali : name -> option nat; len : nat; nreq : nat; hist : list ev }.
Definition upd {A} (f : name -> A) (i : name) (v : A) : name -> A := fun j => if name_beq i j then v else f j.
Definition set_ptr i v (s : st) := {| ptr := upd (ptr s) i v; ali := ali s; len := len s; nreq := nreq s; hist := hist s |}.
Definition set_ali i v (s : st) := {| ptr := ptr s; ali := upd (ali s) i v; len := len s; nreq := nreq s; hist := hist s |}.
Definition set_len n (s : st) := {| ptr := ptr s; ali := ali s; len := n; nreq := nreq s; hist := hist s |}.
Definition event e (s : st) := {| ptr := ptr s; ali := ali s; len := len s; nreq := nreq s; hist := e :: hist s |}.

(** a computation that may throw std::bad_alloc: the flag is false if it did.  Either way it leaves a state. *)
Definition cmd := st -> bool * st.
Definition ok : cmd := fun s => (true, s).
Definition do_ (f : st -> st) : cmd := fun s => (true, f s).
Definition andthen (c d : cmd) : cmd := fun s => let (b, s') := c s in if b then d s' else (false, s').
Notation "c ;> d" := (andthen c d) (at level 61, left associativity).
(** try { c } catch (...) { h; throw; }; also: members already constructed are destroyed when a constructor throws *)
Definition onthrow (c h : cmd) : cmd := fun s => let (b, s') := c s in if b then (true, s') else let (_, s2) := h s' in (false, s2).

Section Alloc.
Variable fail : nat -> bool.

(** simd_malloc (inc/otfft_complex.h:241-254) or operator new; the result is stored in pointer i *)
Definition malloc_to (i : name) (n : nat) : cmd := fun s =>
  if fail (nreq s) then (true, set_ptr i None {| ptr := ptr s; ali := ali s; len := len s; nreq := S (nreq s); hist := hist s |})
  else (true, set_ptr i (Some (nreq s)) {| ptr := ptr s; ali := ali s; len := len s; nreq := S (nreq s); hist := Alloc (nreq s) n :: hist s |}).
(** if (p) simd_free(p) : inc/otfft_complex.h:256 *)
Definition free_of (i : name) : cmd := fun s => match ptr s i with Some b => (true, event (Free b) s) | None => (true, s) end.
(** if (p == 0) throw std::bad_alloc() *)
Definition check (i : name) : cmd := fun s => match ptr s i with Some _ => (true, s) | None => (false, s) end.

(** simd_array::simd_array() : line 262 *)
Definition arr_ctor0 (i : name) : cmd := do_ (set_ptr i None).
(** simd_array::simd_array(int n) : lines 263-266 *)
Definition arr_ctor (i : name) (n : nat) : cmd := malloc_to i n ;> check i.
(** simd_array::~simd_array() : line 268; the array does not exist afterwards *)
Definition arr_dtor (i : name) : cmd := free_of i ;> do_ (set_ptr i None).
(** simd_array::setup : lines 270-275 *)
Definition arr_setup (i : name) (n : nat) : cmd := free_of i ;> malloc_to i n ;> check i.
(** simd_array::destroy : line 277 *)
Definition arr_destroy (i : name) : cmd := free_of i ;> do_ (set_ptr i None).
(** the implicitly declared copy constructor simd_array(const simd_array&), j being the new array : the struct (lines 258-283) declares none *)
Definition arr_copy (i j : name) : cmd := fun s => (true, set_ptr j (ptr s i) s).

(** W = &weight (simd_array::operator& returns p, line 281) *)
Definition take (i : name) : cmd := fun s => (true, set_ali i (ptr s i) s).
(** W = 0 *)
Definition null (i : name) : cmd := do_ (set_ali i None).
(** accesses W[..] *)
Definition use (i : name) : cmd := fun s => match ali s i with Some b => (true, event (Use b) s) | None => (true, event Bad s) end.
(** accesses W[..] by code that does not access it when it is null (kernels of short lengths) *)
Definition use_if (i : name) : cmd := fun s => match ali s i with Some b => (true, event (Use b) s) | None => (true, s) end.

(** ** algorithm objects *)
(** weight.setup(n); W = &weight; and the loops that fill W *)
Definition table (i : name) (n : nat) : cmd := arr_setup i n ;> take i ;> use i.
(** OTFFT_AVXDIF4::FFT0::setup2 and siblings : src/otfft_algo_dif4.cpp:43-58 *)
Definition pow_arr (a : alg) (n : nat) : cmd :=
  let N := 2 ^ n in
  if N <=? radix a then null EW
  else if N <? omp_min a then table EW (2 * N)
  else table EW (N / radix a).
(** OTFFT_SixStep::FFT0::setup2 and init_weight_* : src/otfft_algo_sixstep.cpp:53-113 *)
Definition sub_arr (i : name) (n : nat) : cmd := if n <=? 8 then null i else table i (2 * n).
Definition nxn_arr (i : name) (n : nat) : cmd :=
  let m := n / 2 in
  arr_setup i (n * (n + 2) / 2) ;> take i ;> arr_setup EIv (m * (m + 1) / 2) ;> take EIv ;> use i ;> use EIv.
Definition six_arr (n : nat) : cmd :=
  let N := 2 ^ n in
  if n <=? 5 then sub_arr EW N
  else if Nat.odd n then let m := 2 ^ (n / 2 - 1) in table EW (N / 8) ;> nxn_arr EWm m ;> sub_arr EWs m
  else let m := 2 ^ (n / 2) in nxn_arr EW m ;> sub_arr EWs m.
(** OTFFT_MixedRadix::FFT0::setup : src/otfft_algo_mixed.cpp:38-54 *)
Definition mixed_arr (n : nat) : cmd := table EW (n + 1).
Definition engine_arr (e : engine) : cmd :=
  match e with EPow a n => pow_arr a n | ESix n => six_arr n | EMixed N => mixed_arr N end.

(** instance(): new FFT0() of the algorithm : src/otfft_algo_mixed.cpp:161 and siblings; arrays empty, pointers null.
    operator new throws if it gets no memory.  (A table an algorithm does not have is modelled as empty.) *)
Definition instance : cmd :=
  malloc_to Obj 1 ;> check Obj ;>
  arr_ctor0 EW ;> arr_ctor0 EWm ;> arr_ctor0 EWs ;> arr_ctor0 EIv ;> null EW ;> null EWm ;> null EWs ;> null EIv.
(** obj.reset(): `delete` through the virtual destructor FFT_IF::~FFT_IF (src/otfft_if.h:12): the arrays are
    destroyed in reverse order of declaration, then the object's memory is released *)
Definition obj_reset_arr : cmd := fun s =>
  match ptr s Obj with
  | None => (true, s)
  | Some _ => (arr_dtor EIv ;> arr_dtor EWs ;> arr_dtor EWm ;> arr_dtor EW ;> null EIv ;> null EWs ;> null EWm ;> null EW ;>
               free_of Obj ;> do_ (set_ptr Obj None)) s
  end.

(** ** FFT0 *)
(** FFT0::setup : src/otfft_algo.cpp:61-103 *)
Definition fft0_arr (n : nat) : cmd :=
  obj_reset_arr ;>
  match select n with
  | None => ok
  | Some e => onthrow (instance ;> engine_arr e) obj_reset_arr
  end.
(** FFT0::~FFT0 : src/otfft_algo.cpp:56-59; obj's own destructor then finds it null *)
Definition fft0_dtor : cmd := obj_reset_arr ;> obj_reset_arr.
(** FFT0::fwd .. invn : `obj->...` *)
Definition fft0_call : cmd := fun s =>
  match ptr s Obj with
  | None => (true, event Bad s)
  | Some _ => (use_if EW ;> use_if EWm ;> use_if EWs ;> use_if EIv) s
  end.

(** ** the classes behind ComplexFFT, RealFFT, RealDCT *)
(** FFT::setup : src/otfft_algo.cpp:154-159 *)
Definition fft_arr (n : nat) : cmd := fft0_arr n ;> arr_setup Work n ;> take Work.
(** FFT::FFT(n) : line 147.  If FFT0::setup throws inside FFT0's constructor, obj is null already and its
    destructor does nothing; if work(n) throws, fft is destroyed. *)
Definition fft_ctor (n : nat) : cmd :=
  onthrow (fft0_arr n) obj_reset_arr ;> onthrow (arr_ctor Work n) fft0_dtor ;> take Work.
(** FFT::~FFT : lines 149-152 *)
Definition fft_dtor : cmd := arr_destroy Work ;> arr_dtor Work ;> fft0_dtor.
Definition fft_call : cmd := fft0_call ;> use Work.

(** RFFT : src/otfft_algo.cpp:204-279 *)
Definition rfft_arr (n : nat) : cmd := do_ (set_len n) ;> fft0_arr (n / 2) ;> arr_setup Wu (n + 1) ;> take Wu ;> if n <? 1 then ok else use Wu.
Definition rfft_dtor : cmd := arr_destroy Wu ;> arr_dtor Wu ;> fft0_dtor.
(** members are destroyed when the constructor's body throws: ~simd_array and ~FFT0, but not ~RFFT *)
Definition rfft_unwind : cmd := arr_dtor Wu ;> fft0_dtor.
Definition rfft_call : cmd := fun s => (if len s <? 2 then ok else fft0_call ;> use Wu) s.

(** DCT0 : src/otfft_algo.cpp:501-537 (2*N must not overflow, line 519) *)
Definition dct0_arr (n : nat) : cmd :=
  do_ (set_len n) ;> rfft_arr n ;> arr_setup Wv (n + 1) ;> take Wv ;>
  if negb (mul_ok 2 n) then do_ (event Bad) else if n <? 2 then ok else use Wv.
Definition dct0_dtor : cmd := arr_destroy Wv ;> arr_dtor Wv ;> rfft_dtor.
Definition dct0_call : cmd := fun s => (if len s <? 2 then ok else use Wv ;> use Wk1 ;> use Wk2 ;> rfft_call) s.
(** DCT : src/otfft_algo.cpp:678-735 *)
Definition dct_arr (n : nat) : cmd := do_ (set_len n) ;> dct0_arr n ;> arr_setup Wk1 n ;> take Wk1 ;> arr_setup Wk2 n ;> take Wk2.
Definition dct_dtor : cmd := arr_destroy Wk1 ;> arr_destroy Wk2 ;> arr_dtor Wk2 ;> arr_dtor Wk1 ;> dct0_dtor.
Definition dct_unwind : cmd := arr_dtor Wk2 ;> arr_dtor Wk1 ;> dct0_dtor.

(** Bluestein : src/otfft_algo.cpp:729-775 (int products as in ModelBluestein.v) *)
Definition bl_arr (n : nat) : cmd :=
  if n <? 1 then ok
  else do_ (set_len n) ;>
    if negb (mul_ok 2 n) then do_ (event Bad)
    else match pad_loop 32 1 (2 * n - 1) with
    | None => do_ (event Bad)
    | Some L => fft_arr L ;> arr_setup Wk1 L ;> take Wk1 ;> arr_setup Wk2 L ;> take Wk2 ;> arr_setup Wb (2 * n + 1) ;> take Wb ;> use Wb
    end.
Definition bl_dtor : cmd := arr_destroy Wk1 ;> arr_destroy Wk2 ;> arr_destroy Wb ;> arr_dtor Wb ;> arr_dtor Wk2 ;> arr_dtor Wk1 ;> fft_dtor.
Definition bl_unwind : cmd := arr_dtor Wb ;> arr_dtor Wk2 ;> arr_dtor Wk1 ;> fft_dtor.
Definition bl_call : cmd := fun s => (if len s <? 2 then ok else use Wk1 ;> use Wk2 ;> use Wb ;> fft_call) s.

(** the default constructors: src/otfft_algo.cpp:45, 145, 204, 501, 678, 731: everything null.  Memory requests made
    by other parts of the program are not in the model. *)
Definition fresh : st := {| ptr := fun _ => None; ali := fun _ => None; len := 0; nreq := 0; hist := [] |}.

Inductive cls := CFFT | CReal | CDct | CBluestein.
Definition c_setup (k : cls) : nat -> cmd := match k with CFFT => fft_arr | CReal => rfft_arr | CDct => dct_arr | CBluestein => bl_arr end.
(** RFFT(n), DCT(n), Bluestein(n) : lines 206-209, 680-683, 733-736 *)
Definition c_ctor (k : cls) (n : nat) : cmd :=
  match k with
  | CFFT => fft_ctor n
  | CReal => onthrow (rfft_arr n) rfft_unwind
  | CDct => onthrow (dct_arr n) dct_unwind
  | CBluestein => onthrow (bl_arr n) bl_unwind
  end.
Definition c_dtor (k : cls) : cmd := match k with CFFT => fft_dtor | CReal => rfft_dtor | CDct => dct_dtor | CBluestein => bl_dtor end.
Definition c_call (k : cls) : cmd := match k with CFFT => fft_call | CReal => rfft_call | CDct => dct0_call | CBluestein => bl_call end.

End Alloc.
