(** * The computed function does not depend on the arithmetic except through its operations

    [sim A B R K]: R relates the numbers of the arithmetic A to those of B, every operation maps related numbers to
    related numbers, and K relates the numbers that are divided by.  Then the functions that the model computes
    (fft0_F, ...) map related arrays to related arrays.  PropIeee.v uses this for A = IEEE-754 binary64 numbers with
    infinities, NaNs and signed zeros, B = rounded real numbers and R = "if finite, then equal". *)

From Coq Require Import List Arith ZArith Bool Lia.
From Verif Require Import Scalar.
Import ListNotations.

Record sim (A B : Ops) (R K : @Sc A -> @Sc B -> Prop) : Prop := {
  si_add : forall x x' y y', R x x' -> R y y' -> R (sadd x y) (sadd x' y');
  si_sub : forall x x' y y', R x x' -> R y y' -> R (ssub x y) (ssub x' y');
  si_mul : forall x x' y y', R x x' -> R y y' -> R (smul x y) (smul x' y');
  si_div : forall x x' y y', R x x' -> K y y' -> R (sdiv x y) (sdiv x' y');
  si_neg : forall x x', R x x' -> R (sneg x) (sneg x');
  si_sqrt : forall z, (0 < z <= 2 ^ 31)%Z -> R (ssqrt (sdiv s1 (sofZ z))) (ssqrt (sdiv s1 (sofZ z)));
  si_sqrtK : forall z, (0 < z <= 2 ^ 31)%Z -> K (ssqrt (sofZ z)) (ssqrt (sofZ z));
  si_mysqrt : forall n, n <= 24 -> K (smysqrt (2 ^ Z.of_nat n)%Z) (smysqrt (2 ^ Z.of_nat n)%Z);
  si_cos : forall x x', R x x' -> R (scos x) (scos x');
  si_sin : forall x x', R x x' -> R (ssin x) (ssin x');
  si_ofZ : forall z, R (sofZ z) (sofZ z);
  si_ofZK : forall z, (0 < z <= 2 ^ 31)%Z -> K (sofZ z) (sofZ z);
  si_pi : R spi spi;
  si_sqrt1_2 : R ssqrt1_2 ssqrt1_2;
  si_H1X : R sH1X sH1X;
  si_H1Y : R sH1Y sH1Y;
  si_mulre : forall a a' b b' x x' y y', R a a' -> R b b' -> R x x' -> R y y' -> R (smulre a b x y) (smulre a' b' x' y');
  si_mulim : forall a a' b b' x x' y y', R a a' -> R b b' -> R x x' -> R y y' -> R (smulim a b x y) (smulim a' b' x' y');
  si_v8re : forall x x' y y', R x x' -> R y y' -> R (sv8re x y) (sv8re x' y');
  si_v8im : forall x x' y y', R x x' -> R y y' -> R (sv8im x y) (sv8im x' y');
  si_w8re : forall x x' y y', R x x' -> R y y' -> R (sw8re x y) (sw8re x' y');
  si_w8im : forall x x' y y', R x x' -> R y y' -> R (sw8im x y) (sw8im x' y')
}.

Section Param.
Context {A B : Ops} {R K : @Sc A -> @Sc B -> Prop} (S : sim A B R K).
Notation CA := (@C A).
Notation CB := (@C B).

Definition CR (z : CA) (z' : CB) : Prop := R (fst z) (fst z') /\ R (snd z) (snd z').
Definition LR : list CA -> list CB -> Prop := Forall2 CR.
Definition VR (X : nat -> CA) (X' : nat -> CB) : Prop := forall i, CR (X i) (X' i).

Lemma p_add x x' y y' : CR x x' -> CR y y' -> CR (cadd x y) (cadd x' y').
Proof. intros [] []. split; apply (si_add _ _ _ _ S); assumption. Qed.
Lemma p_sub x x' y y' : CR x x' -> CR y y' -> CR (csub x y) (csub x' y').
Proof. intros [] []. split; apply (si_sub _ _ _ _ S); assumption. Qed.
Lemma p_neg x x' : CR x x' -> CR (cneg x) (cneg x').
Proof. intros []. split; apply (si_neg _ _ _ _ S); assumption. Qed.
Lemma p_conj x x' : CR x x' -> CR (cconj x) (cconj x').
Proof. intros []. split; [assumption|apply (si_neg _ _ _ _ S); assumption]. Qed.
Lemma p_jx x x' : CR x x' -> CR (jx x) (jx x').
Proof. intros []. split; [apply (si_neg _ _ _ _ S); assumption|assumption]. Qed.
Lemma p_mjx x x' : CR x x' -> CR (mjx x) (mjx x').
Proof. intros []. split; [assumption|apply (si_neg _ _ _ _ S); assumption]. Qed.
Lemma p_mul x x' y y' : CR x x' -> CR y y' -> CR (cmul x y) (cmul x' y').
Proof. intros [] []. split; [apply (si_mulre _ _ _ _ S)|apply (si_mulim _ _ _ _ S)]; assumption. Qed.
Lemma p_mulT x x' y y' : CR x x' -> CR y y' -> CR (cmulT x y) (cmulT x' y').
Proof. intros [] []. split; [apply (si_sub _ _ _ _ S)|apply (si_add _ _ _ _ S)]; apply (si_mul _ _ _ _ S); assumption. Qed.
Lemma p_scal r r' x x' : R r r' -> CR x x' -> CR (cscal r x) (cscal r' x').
Proof. intros ? []. split; apply (si_mul _ _ _ _ S); assumption. Qed.
Lemma p_v8 x x' : CR x x' -> CR (v8x x) (v8x x').
Proof. intros []. split; [apply (si_v8re _ _ _ _ S)|apply (si_v8im _ _ _ _ S)]; assumption. Qed.
Lemma p_w8 x x' : CR x x' -> CR (w8x x) (w8x x').
Proof. intros []. split; [apply (si_w8re _ _ _ _ S)|apply (si_w8im _ _ _ _ S)]; assumption. Qed.
Lemma p_h1 x x' : CR x x' -> CR (h1x x) (h1x x').
Proof. apply p_mul. split; [apply (si_H1X _ _ _ _ S)|apply (si_H1Y _ _ _ _ S)]. Qed.
Lemma p_h3 x x' : CR x x' -> CR (h3x x) (h3x x').
Proof. apply p_mul. split; apply (si_neg _ _ _ _ S); [apply (si_H1Y _ _ _ _ S)|apply (si_H1X _ _ _ _ S)]. Qed.
Lemma p_hf x x' : CR x x' -> CR (hfx x) (hfx x').
Proof. apply p_mul. split; [apply (si_H1X _ _ _ _ S)|apply (si_neg _ _ _ _ S), (si_H1Y _ _ _ _ S)]. Qed.
Lemma p_hd x x' : CR x x' -> CR (hdx x) (hdx x').
Proof. apply p_mul. split; [apply (si_neg _ _ _ _ S), (si_H1Y _ _ _ _ S)|apply (si_H1X _ _ _ _ S)]. Qed.
Lemma p_expj t t' : R t t' -> CR (expj t) (expj t').
Proof. intros H. split; [apply (si_cos _ _ _ _ S)|apply (si_sin _ _ _ _ S)]; assumption. Qed.
Lemma p_c0 : CR c0 c0.
Proof. split; apply (si_ofZ _ _ _ _ S). Qed.
Lemma p_c1 : CR c1 c1.
Proof. split; apply (si_ofZ _ _ _ _ S). Qed.

(** lengths that are divided by *)
Definition plen (N : nat) : Prop := exists n, n <= 24 /\ N = 2 ^ n.
Lemma plen_Z N : plen N -> exists n, n <= 24 /\ Z.of_nat N = (2 ^ Z.of_nat n)%Z.
Proof. intros (n & Hn & ->). exists n. split; [exact Hn|]. rewrite Nat2Z.inj_pow. reflexivity. Qed.
Lemma plen_31 N : plen N -> (0 < Z.of_nat N <= 2 ^ 31)%Z.
Proof.
  intros H. destruct (plen_Z N H) as (n & Hn & ->). split; [apply Z.pow_pos_nonneg; lia|]. apply Z.pow_le_mono_r; lia.
Qed.
Lemma p_scale_of N mode : plen N -> R (scale_of N mode) (scale_of N mode).
Proof.
  intros HN. destruct mode; cbn [scale_of].
  - apply (si_ofZ _ _ _ _ S).
  - apply (si_div _ _ _ _ S); [apply (si_ofZ _ _ _ _ S)|]. destruct (plen_Z N HN) as (n & Hn & ->). apply (si_mysqrt _ _ _ _ S). exact Hn.
  - apply (si_div _ _ _ _ S); [apply (si_ofZ _ _ _ _ S)|]. apply (si_ofZK _ _ _ _ S). apply plen_31; auto.
Qed.
Lemma p_scalepz N mode x x' : (mode = scale_1 \/ plen N) -> CR x x' -> CR (scalepz N mode x) (scalepz N mode x').
Proof.
  intros H Hx. destruct mode; cbn [scalepz]; [exact Hx| |]; (destruct H as [H|H]; [discriminate H|]); apply p_scal; auto; apply p_scale_of; auto.
Qed.

Lemma p_nth l l' j : LR l l' -> CR (nth j l c0) (nth j l' c0).
Proof.
  intros H. revert j. induction H as [|x x' l l' Hx H IH]; intros j.
  - destruct j; apply p_c0.
  - destruct j as [|j]; cbn; auto.
Qed.
Lemma p_map {X} (f : X -> CA) (g : X -> CB) l : (forall i, CR (f i) (g i)) -> LR (map f l) (map g l).
Proof. intros H. induction l; constructor; auto. Qed.
Lemma p_app l l' k k' : LR l l' -> LR k k' -> LR (l ++ k) (l' ++ k').
Proof. intros H1 H2. apply Forall2_app; auto. Qed.
End Param.
