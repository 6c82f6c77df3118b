(** * C33, the helpers of src/otfft_misc.h that no kernel of this version calls: division, elementwise product and quotient, horizontal sum *)

From Coq Require Import Reals ZArith List Bool Arith Lra FunctionalExtensionality.
From Verif Require Import Scalar RealOps Simd SimdFacts.
Import ListNotations.

Section Model.
Context {Op : Ops}.
Variables (sfma sfms : Sc -> Sc -> Sc -> Sc).
Variable b : build.
(** divpz: 396-403 (SSE3, FMA) | 439-446 (SSE2) | 632-639 (plain) *)
Definition divpz (ab xy : xmm) : xmm :=
  match b with
  | Plain => let b2 := sadd (smul (fst xy) (fst xy)) (smul (snd xy) (snd xy)) in
             let acb := mulpz sfma sfms b ab (cnjpz b xy) in (sdiv (fst acb) b2, sdiv (snd acb) b2)
  | SSE2 => let x2y2 := mm_mul xy xy in let y2x2 := mm_shuffle x2y2 x2y2 1 in let r2r2 := mm_add x2y2 y2x2 in
            mm_div (mulpz sfma sfms b ab (cnjpz b xy)) r2r2
  | _ => let x2y2 := mm_mul xy xy in let r2r2 := mm_hadd x2y2 x2y2 in mm_div (mulpz sfma sfms b ab (cnjpz b xy)) r2r2
  end.
(** divpz2: 800-806 | 1026-1031 *)
Definition divpz2_avx (ab xy : m256) : m256 :=
  let x2y2 := mm256_mul xy xy in let r2r2 := mm256_hadd x2y2 x2y2 in
  mm256_div (mulpz2_avx sfma sfms b ab (mm256_xor false true false true xy)) r2r2.
Definition divpz2 : ymm b -> ymm b -> ymm b := op2 b divpz2_avx divpz.
(** dived4: 1502-1507 *)
Definition dived4 : emm b -> emm b -> emm b := both2 b (divpd2 b).
End Model.

(** ** Specification: a quotient with the arithmetic [O] of the build, by the conjugate of the divisor *)
Definition quotient (O : Ops) (z w : @C O) : @C O :=
  let n := sadd (smul (Re w) (Re w)) (smul (Im w) (Im w)) in let p := @cmul O z (cconj w) in mkC (sdiv (Re p) n) (sdiv (Im p) n).
Definition elementwise {O : Ops} (f : Sc -> Sc -> Sc) (z w : @C O) : @C O := mkC (f (Re z) (Re w)) (f (Im z) (Im w)).

Theorem C33_unused_helpers : forall (Op : Ops) (sfma sfms : Sc -> Sc -> Sc -> Sc) b,
  lanewise2 b (elementwise smul) (mulpd b) (mulpd2 b) (muled4 b) /\
  lanewise2 b (elementwise sdiv) (divpd b) (divpd2 b) (dived4 b) /\
  (forall x y, haddpz b x y = (sadd (fst x) (snd x), sadd (fst y) (snd y))) /\
  ((forall s t : Sc, sadd s t = sadd t s) ->
   let O := build_ops sfma sfms b in
   (forall z w : @C Op, divpz sfma sfms b z w = quotient O z w) /\
   (forall (v w : @ymm Op b) l, @lane2 Op b l (divpz2 sfma sfms b v w) = quotient O (@lane2 Op b l v) (@lane2 Op b l w))).
Proof.
  intros Op sfma sfms b.
  split; [|split; [|split]].
  - constructor; intros; repeat match goal with v : emm b |- _ => destruct v | z : C |- _ => destruct z | h : bool |- _ => destruct h end;
      repeat match goal with v : ymm b |- _ => revert v end; destruct b; cbn; intros;
      repeat match goal with v : m256 |- _ => destruct v | v : (_ * _)%type |- _ => destruct v end; reflexivity.
  - constructor; intros; repeat match goal with v : emm b |- _ => destruct v | z : C |- _ => destruct z | h : bool |- _ => destruct h end;
      repeat match goal with v : ymm b |- _ => revert v end; destruct b; cbn; intros;
      repeat match goal with v : m256 |- _ => destruct v | v : (_ * _)%type |- _ => destruct v end; reflexivity.
  - intros [x x'] [y y']. destruct b; reflexivity.
  - intros Hc O. assert (H1 : forall z w : @C Op, divpz sfma sfms b z w = quotient O z w).
    { intros [z z'] [w w']. unfold O, quotient. destruct b; cbn; try reflexivity. unfold mm_div, mm_add. cbn. rewrite (Hc (smul w' w') (smul w w)). reflexivity. }
    split; [exact H1|]. intros v w l. subst O. revert v w H1. destruct b; cbn; intros v w H1;
      repeat match goal with v : m256 |- _ => destruct v | v : (_ * _)%type |- _ => destruct v | h : bool |- _ => destruct h end;
      first [reflexivity | apply H1].
Qed.
Print Assumptions C33_unused_helpers.

(** with exact arithmetic the quotient is the quotient of complex numbers, in every build *)
Theorem C33_exact_quotient : forall bd (z w : CC), w <> (0, 0)%R ->
  cmul (divpz (Op := ROps) rfma rfms bd z w) w = z.
Proof.
  intros bd z w Hw.
  destruct (C33_unused_helpers ROps rfma rfms bd) as (_ & _ & _ & H). destruct (H Rplus_comm) as [H1 _]. rewrite H1. clear H H1.
  unfold build_ops. rewrite build_six_R. change (set_ops R_six) with ROps.
  destruct z as [a a'], w as [c d]. unfold quotient. cbn -[Rplus Rminus Rmult Rdiv Ropp]. 
  assert (N : (c * c + d * d <> 0)%R).
  { intros E. apply Hw. assert (c * c = 0 /\ d * d = 0)%R as [E1 E2] by (split; nra).
    f_equal; [destruct (Rmult_integral _ _ E1)|destruct (Rmult_integral _ _ E2)]; assumption. }
  unfold cmul, mkC, Re, Im. cbn -[Rplus Rminus Rmult Rdiv Ropp]. f_equal; field; exact N.
Qed.
Print Assumptions C33_exact_quotient.

(** for instance (1 + 2i) / (3 - 4i) * (3 - 4i) = 1 + 2i *)
Example C33_quotient_example : forall bd, cmul (divpz (Op := ROps) rfma rfms bd (1, 2)%R (3, -4)%R) (3, -4)%R = (1, 2)%R :> CC.
Proof. intros bd. apply C33_exact_quotient. intros E. apply (f_equal fst) in E. cbn in E. lra. Qed.
