(** * The arithmetic of the power-of-two kernels *)

From Coq Require Import Reals List Arith ZArith Bool Lia.
From Verif Require Import Scalar RealOps Spec DftFacts Mem Lanes Butterfly ButterflyFacts Stage CoreStage ModelPow PowDrive PowKern PowRun FftSpec MixedSpec.
From Verif Require Import ModelDif4 ModelDif8 ModelDif16 ModelDit4 ModelDit8 ModelDit16.
Import ListNotations.
Local Open Scope nat_scope.

(** ** shape of the kernels (any arithmetic) *)
Section Forms.
Context {Op : Ops}.
Definition f16 : list C -> list C := dif16_fwdend16_1_fn scale_1.
Definition i16 : list C -> list C := dif16_invend16_1_fn scale_1.
Definition bf (inv : bool) (r : nat) : list C -> list C :=
  match r with 16 => if inv then i16 else f16 | 8 => if inv then i8 else f8 | 4 => if inv then i4 else f4 | _ => b2 end.

Ltac dl xs H := let v := fresh "x" in destruct xs as [|v xs]; [try discriminate H|try discriminate H; dl xs H].

Definition cj (inv : bool) (z : C) := if inv then cconj z else z.
(** final butterflies scale their inputs *)
Lemma ef_form o a inv mode n s xs : ends n -> length xs = n -> ef o a inv mode n s xs = bf inv n (map (scalepz (n * s) mode) xs).
Proof.
  intros Hn. unfold ef, ef_dif, ef_dit.
  destruct (is_dit a); destruct Hn as [->|[->|[->| ->]]]; destruct (Nat.eqb_spec s 1) as [->|]; destruct o, inv; intros H; dl xs H; reflexivity.
Qed.
Lemma kf_s_dif a inv s ws xs : is_dit a = false -> length ws = radix a - 1 -> length xs = radix a ->
  kf false a inv s (ws ++ xs) = twist (map (cj inv) ws) (bf inv (radix a) xs).
Proof.
  intros Hd H1 H2. unfold kf.
  destruct a; try discriminate Hd; destruct (s =? 1); destruct inv; cbn [radix Nat.sub] in *; dl ws H1; dl xs H2; reflexivity.
Qed.
Lemma kf_s_dit a inv s ws xs : is_dit a = true -> length ws = radix a - 1 -> length xs = radix a ->
  kf false a inv s (ws ++ xs) = bf inv (radix a) (twist (map (cj inv) ws) xs).
Proof.
  intros Hd H1 H2. unfold kf.
  destruct a; try discriminate Hd; destruct (s =? 1); destruct inv; cbn [radix Nat.sub] in *; dl ws H1; dl xs H2; reflexivity.
Qed.
End Forms.

(** kernels of thread teams compute the powers of one twiddle factor *)
Ltac dl xs H := let v := fresh "x" in destruct xs as [|v xs]; [try discriminate H|try discriminate H; dl xs H].
Ltac ev n := match n with O => constr:(@nil CC) | S ?m => let l := ev m in let e := open_constr:(_ : CC) in constr:(e :: l) end.
Lemma kf_o_dif a inv s (w : CC) xs : is_dit a = false -> length xs = radix a ->
  kf true a inv s ([w] ++ xs) = twist (wpows (cj inv w) (radix a - 1)) (bf inv (radix a) xs).
Proof.
  intros Hd H2. unfold kf.
  destruct a; try discriminate Hd; destruct (s =? 1); destruct inv; cbn [radix Nat.sub] in *; dl xs H2;
  match goal with |- _ = twist (wpows _ ?n) ?b => let l := ev n in transitivity (twist l b); [reflexivity|f_equal; unfold cj; pows] end.
Qed.
Lemma kf_o_dit a inv s (w : CC) xs : is_dit a = true -> length xs = radix a ->
  kf true a inv s ([w] ++ xs) = bf inv (radix a) (twist (wpows (cj inv w) (radix a - 1)) xs).
Proof.
  intros Hd H2. unfold kf.
  destruct a; try discriminate Hd; destruct (s =? 1); destruct inv; cbn [radix Nat.sub] in *; dl xs H2;
  match goal with |- _ = ?f (twist (wpows _ ?n) ?b) => let l := ev n in transitivity (f (twist l b)); [reflexivity|do 2 f_equal; unfold cj; pows] end.
Qed.


(** ** the radix-16 butterflies *)
Definition w16 (inv : bool) : CC := W inv 16 1.
Lemma w16_pow inv k : W inv 16 k = cpow (w16 inv) k.
Proof. apply W_pow. Qed.
Lemma w16_neg inv k : (k <= 8)%nat -> W (negb inv) 16 k = cneg (cpow (w16 inv) (8 - k)).
Proof.
  intros Hk. rewrite <- (W_rev inv 16 k) by lia. replace (16 - k) with (8 + (8 - k)) by lia.
  rewrite W_add. change 16 with (2 * 8) at 1. rewrite (W_half inv 8) by lia. rewrite <- w16_pow. ring.
Qed.
Lemma w16_8 inv k : W inv 8 k = cpow (w16 inv) (2 * k).
Proof. rewrite <- w16_pow. symmetry. apply (W_scale inv 2 8); lia. Qed.
Lemma w16_8n inv : W (negb inv) 8 1 = cneg (cpow (w16 inv) 6).
Proof. rewrite <- (W_scale (negb inv) 2 8 1) by lia. apply (w16_neg inv 2). lia. Qed.
Lemma w16_ci_t : ci = cpow (w16 true) 4.
Proof. rewrite <- w16_pow, <- W_4_1_inv. symmetry. apply (W_scale true 4 4 1); lia. Qed.
Lemma w16_ci_f : ci = cneg (cpow (w16 false) 4).
Proof. rewrite <- W_4_1_inv. rewrite <- (W_scale true 4 4 1) by lia. apply (w16_neg false 4). lia. Qed.
Lemma W_16_3 : W false 16 3 = (sin (PI / 8), - cos (PI / 8))%R.
Proof.
  assert (E : W false 16 3 = cmul (W true 16 1) (W false 4 1)).
  { change true with (negb false). rewrite w16_neg by lia. rewrite <- (W_scale false 4 4 1) by lia. change (4 * 4) with 16. rewrite !w16_pow. cbn [Nat.sub Nat.mul Nat.add cpow].
    pose proof (W_16_8 false) as Hw. fold (w16 false) in Hw. ring [Hw]. }
  rewrite E, W_4_1_fwd. change true with (negb false). rewrite <- W_conj, W_16_1_fwd. csimp; ring.
Qed.
Lemma h1x_mul z : h1x z = cmul (cpow (w16 false) 1) z.
Proof. rewrite <- w16_pow, W_16_1_fwd. csimp; ring. Qed.
Lemma h3x_mul z : h3x z = cmul (cpow (w16 false) 3) z.
Proof. rewrite <- w16_pow, W_16_3. csimp; ring. Qed.
Lemma hfx_mul z : hfx z = cmul (cpow (w16 true) 1) z.
Proof. rewrite <- w16_pow. change true with (negb false). rewrite <- W_conj, W_16_1_fwd. csimp; ring. Qed.
Lemma hdx_mul z : hdx z = cmul (cpow (w16 true) 3) z.
Proof. rewrite <- w16_pow. change true with (negb false). rewrite <- W_conj, W_16_3. csimp; ring. Qed.
Lemma w16_tf k : (k <= 8)%nat -> cpow (w16 true) k = cneg (cpow (w16 false) (8 - k)).
Proof. intros H. rewrite <- w16_pow. apply (w16_neg false k H). Qed.
Lemma w16_ft k : (k <= 8)%nat -> cpow (w16 false) k = cneg (cpow (w16 true) (8 - k)).
Proof. intros H. rewrite <- w16_pow. apply (w16_neg true k H). Qed.

Ltac fin16 inv := pose proof (W_16_8 inv) as Hw; fold (w16 inv) in Hw; 
  set (w := w16 inv) in *; clearbody w; cbn [cpow Nat.sub Nat.mul Nat.add]; change (0, 0)%R with (@c0 ROps); repeat (apply (f_equal2 cons); [ring [Hw]|]); reflexivity.
Lemma f16_dft : is_bfly false 16 f16.
Proof.
  bfly 16. cbv beta iota zeta delta [f16 dif16_fwdend16_1_fn scalepz].
  rewrite !jx_ci, !w8x_mul, !v8x_mul, !h1x_mul, !h3x_mul, !hfx_mul, !hdx_mul, w16_ci_f, !w16_8, !w16_tf by lia.
  fold (w16 false). fin16 false.
Qed.
Lemma i16_dft : is_bfly true 16 i16.
Proof.
  bfly 16. cbv beta iota zeta delta [i16 dif16_invend16_1_fn scalepz].
  rewrite !jx_ci, !w8x_mul, !v8x_mul, !h1x_mul, !h3x_mul, !hfx_mul, !hdx_mul, w16_ci_t, !w16_8, !w16_ft by lia.
  fold (w16 true). fin16 true.
Qed.

Lemma bf_dft inv r : ends r -> is_bfly inv r (bf inv r).
Proof.
  intros [->|[->|[->| ->]]]; destruct inv; cbn [bf]; [apply b2_dft|apply b2_dft|apply i4_dft|apply f4_dft|apply i8_dft|apply f8_dft|apply i16_dft|apply f16_dft].
Qed.
Lemma radix_ends a : ends (radix a).
Proof. destruct a; unfold ends; cbn; auto. Qed.

