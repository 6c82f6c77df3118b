(** * mysqrt, the compile-time square root behind the unitary scaling of power-of-two lengths

    src/otfft_misc.h:68-73, used by scalepz<N, scale_unitary> (src/otfft_misc.h:339 and its copies) as 1.0/mysqrt(N). *)

From Coq Require Import Reals ZArith Bool Lia Lra SpecFloat.
From Flocq Require Import Core.Core IEEE754.BinarySingleNaN.

Section Mysqrt.
Variables prec emax : Z.
Context (prec_gt_0_ : FLX.Prec_gt_0 prec) (prec_lt_emax_ : Prec_lt_emax prec emax).
Notation F := (binary_float prec emax).
Notation add := (@Bplus prec emax _ _ mode_NE).
Notation div := (@Bdiv prec emax _ _ mode_NE).
(** int -> double *)
Definition f_ofZ (z : Z) : F := binary_normalize prec emax _ _ mode_NE z 0 false.

(** constexpr double sqrt_aux(double a, double x, double y) { return x == y ? x : sqrt_aux(a, (x + a/x)/2, x); }
    : src/otfft_misc.h:68-71; [None] if more than [fuel] recursive calls are needed *)
Fixpoint sqrt_aux (fuel : nat) (a x y : F) : option F :=
  if Beqb x y then Some x
  else match fuel with
       | O => None
       | S fuel' => sqrt_aux fuel' a (div (add x (div a x)) (f_ofZ 2)) x
       end.
(** constexpr double mysqrt(double x) { return sqrt_aux(x, x/2, x); } : src/otfft_misc.h:73 *)
Definition mysqrt (fuel : nat) (x : F) : option F := sqrt_aux fuel x (div x (f_ofZ 2)) x.
(** an evaluation that needs more than 512 nested calls is rejected by the compilers (the default of -fconstexpr-depth) *)
Definition mysqrt_Z (z : Z) : F := match mysqrt 511 (f_ofZ z) with Some r => r | None => B754_nan end.

Lemma sqrt_aux_more fuel fuel' a x y r : (fuel <= fuel')%nat -> sqrt_aux fuel a x y = Some r -> sqrt_aux fuel' a x y = Some r.
Proof.
  revert fuel' x y. induction fuel as [|fuel IH]; intros fuel' x y Hf; cbn [sqrt_aux].
  - destruct fuel'; cbn [sqrt_aux]; destruct (Beqb x y); auto; discriminate.
  - destruct fuel'; [lia|]. cbn [sqrt_aux]. destruct (Beqb x y); auto. apply IH. lia.
Qed.
Lemma mysqrt_Z_more fuel z r : (fuel <= 511)%nat -> mysqrt fuel (f_ofZ z) = Some r -> mysqrt_Z z = r.
Proof. intros Hf H. unfold mysqrt_Z. unfold mysqrt in *. rewrite (sqrt_aux_more fuel 511 _ _ _ r); auto. Qed.
End Mysqrt.
