(** * Scalar and complex arithmetic of the model

    Models the [double] arithmetic and [complex_t] of inc/otfft_complex.h:70-228 and the lane-wise
    SIMD operations of src/otfft_misc.h:227-690 (xmm), 694-1160 (ymm), 1458-1862 (emm).

    Everything is parametrised by a record [Ops] of scalar operations on which NO law is assumed.
    Theorems about memory, schedules and determinism are proved for every [Ops], hence also for
    IEEE-754 doubles (with or without FMA contraction, as long as the same source expression always
    yields the same operation).  Functional theorems use the instance over Coq's reals (RealOps.v). *)

From Coq Require Import ZArith List.
Import ListNotations.

Class Ops := {
  Sc : Type;                         (* double *)
  sadd : Sc -> Sc -> Sc;
  ssub : Sc -> Sc -> Sc;
  smul : Sc -> Sc -> Sc;
  sdiv : Sc -> Sc -> Sc;
  sneg : Sc -> Sc;
  ssqrt : Sc -> Sc;
  smysqrt : Z -> Sc;                 (* mysqrt(N), N an int: src/otfft_misc.h:68-73, see Mysqrt.v *)
  scos : Sc -> Sc;
  ssin : Sc -> Sc;
  sofZ : Z -> Sc;                    (* implicit int -> double conversion *)
  spi : Sc;                          (* M_PI, src/otfft_misc.h:28-30 *)
  ssqrt1_2 : Sc;                     (* M_SQRT1_2, src/otfft_misc.h:36-38 *)
  sH1X : Sc;                         (* H1X = cos(pi/8), src/otfft_misc.h:43 *)
  sH1Y : Sc;                         (* H1Y = -sin(pi/8), src/otfft_misc.h:44 *)
  (* What the SIMD helpers that combine the two halves of a complex number compute depends on the build (SSE2 without
     SSE3, SSE3, FMA); the model leaves it open.  Simd.v models the helpers of every build and shows that they are of
     this form, and what the six functions are for each. *)
  smulre : Sc -> Sc -> Sc -> Sc -> Sc;   (* mulpz((a,b), (x,y)): real part,  a*x - b*y *)
  smulim : Sc -> Sc -> Sc -> Sc -> Sc;   (*                      imaginary part, a*y + b*x *)
  sv8re : Sc -> Sc -> Sc;                (* v8xpz((x,y)): real part, sqrt(1/2)*(x - y) *)
  sv8im : Sc -> Sc -> Sc;                (*               imaginary part, sqrt(1/2)*(x + y) *)
  sw8re : Sc -> Sc -> Sc;                (* w8xpz((x,y)): real part, sqrt(1/2)*(x + y) *)
  sw8im : Sc -> Sc -> Sc                 (*               imaginary part, sqrt(1/2)*(y - x) *)
}.

Section Complex.
Context {Op : Ops}.

(** [complex_t]: inc/otfft_complex.h:76-78.  Also one SIMD lane (xmm). *)
Definition C : Type := (Sc * Sc)%type.

Definition mkC (re im : Sc) : C := (re, im).
Definition Re (z : C) : Sc := fst z.
Definition Im (z : C) : Sc := snd z.

Definition s0 : Sc := sofZ 0.
Definition s1 : Sc := sofZ 1.
Definition s2 : Sc := sofZ 2.

(** addpz/addpz2/addez4, complex_t operator+ : inc/otfft_complex.h:189-193, src/otfft_misc.h:313-317 *)
Definition cadd (a b : C) : C := mkC (sadd (Re a) (Re b)) (sadd (Im a) (Im b)).
(** subpz/subpz2/subez4, operator- : inc/otfft_complex.h:194-198, src/otfft_misc.h:318-322 *)
Definition csub (a b : C) : C := mkC (ssub (Re a) (Re b)) (ssub (Im a) (Im b)).
(** negpz, neg : inc/otfft_complex.h:179-183, src/otfft_misc.h:300-305 *)
Definition cneg (a : C) : C := mkC (sneg (Re a)) (sneg (Im a)).
(** cnjpz, conj : inc/otfft_complex.h:145-149, src/otfft_misc.h:288-293 *)
Definition cconj (a : C) : C := mkC (Re a) (sneg (Im a)).
(** jxpz/jxpz2/jxez4, jx : inc/otfft_complex.h:174-178, src/otfft_misc.h:294-299 *)
Definition jx (z : C) : C := mkC (sneg (Im z)) (Re z).
(** mjxpz, mjx : inc/otfft_complex.h:184-188, src/otfft_misc.h:306-311 *)
Definition mjx (z : C) : C := mkC (Im z) (sneg (Re z)).
(** mulpz/mulpz2/mulez4 : src/otfft_misc.h:383-394, 431-437, and operator* of struct cpx, src/otfft_mixedradix.h:30-41 *)
Definition cmul (a b : C) : C :=
  mkC (smulre (Re a) (Im a) (Re b) (Im b)) (smulim (Re a) (Im a) (Re b) (Im b)).
(** complex_t operator* : inc/otfft_complex.h:204-208 *)
Definition cmulT (a b : C) : C :=
  mkC (ssub (smul (Re a) (Re b)) (smul (Im a) (Im b)))
      (sadd (smul (Re a) (Im b)) (smul (Im a) (Re b))).
(** mulpd/mulpd2/muled4 with a broadcast real factor, double*complex_t :
    inc/otfft_complex.h:199-203, src/otfft_misc.h:323-327 *)
Definition cscal (r : Sc) (z : C) : C := mkC (smul r (Re z)) (smul r (Im z)).
(** v8xpz etc: multiplication by exp(+i pi/4), src/otfft_misc.h:48-52,403-409 *)
Definition v8x (z : C) : C :=
  mkC (sv8re (Re z) (Im z)) (sv8im (Re z) (Im z)).
(** w8xpz etc: multiplication by exp(-i pi/4), src/otfft_misc.h:53-57,463-469 *)
Definition w8x (z : C) : C :=
  mkC (sw8re (Re z) (Im z)) (sw8im (Re z) (Im z)).
(** h1xpz : src/otfft_misc.h:470-475 *)
Definition h1x (z : C) : C := cmul (mkC sH1X sH1Y) z.
(** h3xpz : src/otfft_misc.h:477-482 *)
Definition h3x (z : C) : C := cmul (mkC (sneg sH1Y) (sneg sH1X)) z.
(** hfxpz : src/otfft_misc.h:484-489 *)
Definition hfx (z : C) : C := cmul (mkC sH1X (sneg sH1Y)) z.
(** hdxpz : src/otfft_misc.h:491-496 *)
Definition hdx (z : C) : C := cmul (mkC (sneg sH1Y) sH1X) z.

(** expj(theta) = std::polar(1.0, theta) : inc/otfft_complex.h:221-226 *)
Definition expj (theta : Sc) : C := mkC (scos theta) (ssin theta).

Definition c0 : C := mkC s0 s0.
Definition c1 : C := mkC s1 s0.

(** enum scaling_mode : src/otfft_misc.h:46 *)
Inductive smode := scale_1 | scale_unitary | scale_length.

(** the compile-time constant [scale] of scalepz<N,mode> : src/otfft_misc.h:337-344 *)
Definition scale_of (N : nat) (mode : smode) : Sc :=
  match mode with
  | scale_1 => s1
  | scale_unitary => sdiv s1 (smysqrt (Z.of_nat N))
  | scale_length => sdiv s1 (sofZ (Z.of_nat N))
  end.

(** scalepz<N,mode>/scalepz2/scaleez4 : src/otfft_misc.h:334-344, 1530-1541 *)
Definition scalepz (N : nat) (mode : smode) (z : C) : C :=
  match mode with scale_1 => z | _ => cscal (scale_of N mode) z end.

End Complex.

Declare Scope C_scope.
Delimit Scope C_scope with C.
Infix "+" := cadd : C_scope.
Infix "-" := csub : C_scope.
Infix "*" := cmul : C_scope.
