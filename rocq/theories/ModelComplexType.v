(** * The public complex number type (struct complex_t, inc/otfft_complex.h:76-226)

    Doubles live in a memory of cells numbered by nat; the object at address p has its real part in cell p and its
    imaginary part in cell p+1.  A reference argument is an address, so that it may refer to (a part of) the object
    itself.  Simplification: plain C++ arithmetic without contraction (DESIGN.md section 2). *)

From Coq Require Import ZArith List Arith Bool.
From Verif Require Import Scalar.
Import ListNotations.

Section ComplexType.
Context {Op : Ops}.

Definition dmem := nat -> Sc.
Definition dset (m : dmem) (a : nat) (v : Sc) : dmem := fun i => if i =? a then v else m i.
(** the value of the object at p *)
Definition obj (m : dmem) (p : nat) : C := mkC (m p) (m (p + 1)).

(** ** compound assignment *)
(** complex_t& operator+=(const complex_t& z) : inc/otfft_complex.h:86-91 *)
Definition op_add_eq (m : dmem) (p z : nat) : dmem :=
  let m1 := dset m p (sadd (m p) (m z)) in
  dset m1 (p + 1) (sadd (m1 (p + 1)) (m1 (z + 1))).
(** complex_t& operator-=(const complex_t& z) : inc/otfft_complex.h:93-98 *)
Definition op_sub_eq (m : dmem) (p z : nat) : dmem :=
  let m1 := dset m p (ssub (m p) (m z)) in
  dset m1 (p + 1) (ssub (m1 (p + 1)) (m1 (z + 1))).
(** complex_t& operator*=(const double& x) : inc/otfft_complex.h:100-105 *)
Definition op_scal_eq (m : dmem) (p x : nat) : dmem :=
  let m1 := dset m p (smul (m p) (m x)) in
  dset m1 (p + 1) (smul (m1 (p + 1)) (m1 x)).
(** complex_t& operator/=(const double& x) : inc/otfft_complex.h:107-112 *)
Definition op_div_eq (m : dmem) (p x : nat) : dmem :=
  let m1 := dset m p (sdiv (m p) (m x)) in
  dset m1 (p + 1) (sdiv (m1 (p + 1)) (m1 x)).
(** complex_t& operator*=(const complex_t& z) : inc/otfft_complex.h:114-120 *)
Definition op_mul_eq (m : dmem) (p z : nat) : dmem :=
  let tmp := ssub (smul (m p) (m z)) (smul (m (p + 1)) (m (z + 1))) in
  let m1 := dset m (p + 1) (sadd (smul (m p) (m (z + 1))) (smul (m (p + 1)) (m z))) in
  dset m1 p tmp.

(** ** constructors : inc/otfft_complex.h:80-84 *)
Definition ctor_default : C := mkC s0 s0.
Definition ctor_real (x : Sc) : C := mkC x s0.
Definition ctor_pair (x y : Sc) : C := mkC x y.
(** std::complex<double> is a pair (real, imag) *)
Definition ctor_std (z : Sc * Sc) : C := mkC (fst z) (snd z).
Definition to_std (z : C) : Sc * Sc := (Re z, Im z).

(** ** functions : inc/otfft_complex.h:136-189 *)
Definition z_norm (z : C) : Sc := sadd (smul (Re z) (Re z)) (smul (Im z) (Im z)).
Definition z_conj (z : C) : C := ctor_pair (Re z) (sneg (Im z)).
Definition z_abs (z : C) : Sc := ssqrt (z_norm z).
Definition z_arg (atan2 : Sc -> Sc -> Sc) (z : C) : Sc := atan2 (Im z) (Re z).
Definition z_proj (z : C) : C :=
  let den := sadd (z_norm z) s1 in ctor_pair (sdiv (smul s2 (Re z)) den) (sdiv (smul s2 (Im z)) den).
Definition z_polar (rho theta : Sc) : C := ctor_pair (smul rho (scos theta)) (smul rho (ssin theta)).
Definition z_jx (z : C) : C := ctor_pair (sneg (Im z)) (Re z).
Definition z_neg (z : C) : C := ctor_pair (sneg (Re z)) (sneg (Im z)).
Definition z_mjx (z : C) : C := ctor_pair (Im z) (sneg (Re z)).
(** ** operators : inc/otfft_complex.h:190-226 *)
Definition z_add (a b : C) : C := ctor_pair (sadd (Re a) (Re b)) (sadd (Im a) (Im b)).
Definition z_sub (a b : C) : C := ctor_pair (ssub (Re a) (Re b)) (ssub (Im a) (Im b)).
Definition z_scal (a : Sc) (b : C) : C := ctor_pair (smul a (Re b)) (smul a (Im b)).
Definition z_mul (a b : C) : C :=
  ctor_pair (ssub (smul (Re a) (Re b)) (smul (Im a) (Im b))) (sadd (smul (Re a) (Im b)) (smul (Im a) (Re b))).
Definition z_divr (a : C) (b : Sc) : C := ctor_pair (sdiv (Re a) b) (sdiv (Im a) b).
Definition z_div (a b : C) : C :=
  let b2 := sadd (smul (Re b) (Re b)) (smul (Im b) (Im b)) in z_divr (z_mul a (z_conj b)) b2.
(** complex_t(std::polar(1.0, theta)); std::polar(rho, theta) = (rho cos theta, rho sin theta) *)
Definition z_expj (theta : Sc) : C := ctor_std (smul s1 (scos theta), smul s1 (ssin theta)).
End ComplexType.
