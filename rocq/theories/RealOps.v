(** * Exact arithmetic: the instance of [Ops] over Coq's real numbers *)

From Coq Require Import Reals ZArith Ring.
From Verif Require Import Scalar.
Local Open Scope R_scope.

(** M_PI, M_SQRT1_2, H1X, H1Y are the exact numbers their literals approximate
    (src/otfft_misc.h:28-44). *)
Global Instance ROps : Ops := {
  Sc := R; sadd := Rplus; ssub := Rminus; smul := Rmult; sdiv := Rdiv; sneg := Ropp;
  ssqrt := sqrt; smysqrt := fun z => sqrt (IZR z); scos := cos; ssin := sin; sofZ := IZR; spi := PI;
  ssqrt1_2 := / sqrt 2; sH1X := cos (PI / 8); sH1Y := - sin (PI / 8);
  smulre := fun a b x y => a * x - b * y; smulim := fun a b x y => a * y + b * x;
  sv8re := fun x y => / sqrt 2 * (x - y); sv8im := fun x y => / sqrt 2 * (x + y);
  sw8re := fun x y => / sqrt 2 * (x + y); sw8im := fun x y => / sqrt 2 * (y - x)
}.

Notation CC := (@C ROps).

Definition rc (r : R) : CC := (r, 0).
Definition ci : CC := (0, 1).
Definition cis (t : R) : CC := (cos t, sin t).

Lemma C_eq (a b : CC) : @eq R (fst a) (fst b) -> @eq R (snd a) (snd b) -> a = b.
Proof. destruct a, b; cbn; intros -> ->; reflexivity. Qed.

Ltac creduce := unfold c0, c1, s0, s1, s2, h1x, h3x, hfx, hdx, v8x, w8x, cadd, csub, cneg, cmul, cmulT, cconj, jx, mjx, cscal, rc, ci in *; unfold mkC, Re, Im in *; cbn [fst snd Sc sadd ssub smul sdiv sneg ssqrt scos ssin sofZ spi ssqrt1_2 sH1X sH1Y smulre smulim sv8re sv8im sw8re sw8im ROps] in *.
Lemma cmulT_cmul : @cmulT ROps = @cmul ROps.
Proof. reflexivity. Qed.
Ltac csimp := apply C_eq; creduce.

Lemma C_ring_theory : ring_theory (@c0 ROps) (@c1 ROps) cadd cmul csub cneg (@eq CC).
Proof. constructor; intros; csimp; ring. Qed.

Add Ring Cring : C_ring_theory.

(** Components of the operations, for rewriting without unfolding. *)
Lemma jx_ci z : jx z = cmul ci z.
Proof. csimp; ring. Qed.
Lemma mjx_ci z : mjx z = cneg (cmul ci z).
Proof. csimp; ring. Qed.
Lemma cscal_rc r z : cscal r z = cmul (rc r) z.
Proof. csimp; ring. Qed.
Lemma ci_sq : cmul ci ci = cneg (@c1 ROps).
Proof. csimp; ring. Qed.
